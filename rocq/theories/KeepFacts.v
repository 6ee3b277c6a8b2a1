(** What does not capture keeps the size of the read buffer. *)
From Coq Require Import ZArith List Bool Lia Program.Basics.
From Verif Require Import Base ModelIter ModelStack ModelSkip ModelStr ModelInt ModelFloat ModelRead ModelGrow ModelBase64 ModelOps ModelVal ModelIterate SpecKeep.
Import ListNotations.
Local Open Scope Z_scope.

(** the bytes the reader still has *)
Definition unread (it : iter) : nat := match it_reader it with None => O | Some r => length (rd_data r) end.
(** the larger of the two buffers *)
Definition buffers (it : iter) : nat := Nat.max (length (it_buffer it)) (length (it_fixbuf it)).
Section Keeps.
(** [cap]: the function may capture; [u]: the useNumber flag *)
Variables cap u : bool.
(** the buffers grow at most by what was read, and without capturing neither their size nor the flag changes *)
Definition sized (a b : iter) : Prop :=
  it_useNumber b = it_useNumber a /\ (buffers b + unread b <= buffers a + unread a)%nat
  /\ (cap = false -> it_capture a = false -> it_capture b = false /\ length (it_buffer b) = length (it_buffer a) /\ it_fixbuf b = it_fixbuf a).
Lemma sized_refl a : sized a a.
Proof. repeat split; auto. Qed.
Lemma sized_trans a b c : sized a b -> sized b c -> sized a c.
Proof.
  intros (A2 & A3 & A4) (B2 & B3 & B4). split; [congruence|]. split; [lia|].
  intros Q Ca. destruct (A4 Q Ca) as (A1 & A5 & A6). destruct (B4 Q A1) as (B1 & B5 & B6). repeat split; congruence.
Qed.
Definition keeps {A} (m : M A) : Prop := forall it, it_useNumber it = u -> sized it (snd (m it)).
Lemma kp_ext {A} (m m' : M A) : keeps m -> (forall it, m it = m' it) -> keeps m'.
Proof. intros H E it U. rewrite <- E. apply H; assumption. Qed.
Lemma kp_pure {A} (r : res A) : keeps (fun it => (r, it)).
Proof. intros it U. apply sized_refl. Qed.
Lemma kp_ret {A} (a : A) : keeps (ret a). Proof. apply kp_pure. Qed.
Lemma kp_fail {A} e : keeps (@fail A e). Proof. apply kp_pure. Qed.
Lemma kp_panic {A} : keeps (@panic A). Proof. apply kp_pure. Qed.
Lemma kp_fuel {A} : keeps (@outOfFuel A). Proof. apply kp_pure. Qed.
Lemma kp_lift {A} (r : res A) : keeps (lift r). Proof. apply kp_pure. Qed.
Lemma kp_then {A B} (m : M A) (k : res A -> M B) : keeps m -> (forall r, keeps (k r)) -> keeps (fun it => let '(r, it') := m it in k r it').
Proof.
  intros H K it U. specialize (H it U). destruct (m it) as [r it']. cbn [snd] in H. eapply sized_trans; [exact H|].
  apply K. destruct H as (H & _). congruence.
Qed.
Lemma rd_read_len k r b e r' : rd_read k r = (b, e, r') -> (length b <= k)%nat /\ (length b + length (rd_data r') = length (rd_data r))%nat.
Proof.
  unfold rd_read. destruct (rd_sched r) as [|[n fl] sc]; intros [= <- <- <-]; cbn [rd_data]; rewrite firstn_length, skipn_length; lia.
Qed.
Lemma kp_more_loop f : keeps (readMore_loop f).
Proof.
  induction f as [|f IH]; intros it U; [apply sized_refl|]. cbn [readMore_loop].
  destruct (it_reader it) as [r|] eqn:Er; [|apply sized_refl].
  destruct (it_capture it) eqn:Cp; cbn [andb].
  - destruct (rd_read bufferSize r) as [[b e] r'] eqn:R. apply rd_read_len in R. destruct R as [_ R].
    set (it' := mkIter _ _ _ _ _ _ _ _ _ _ _).
    assert (S : sized it it').
    { split; [reflexivity|]. split; [|rewrite Cp; discriminate].
      unfold buffers, unread. rewrite Er. cbn [it' it_buffer it_fixbuf it_reader]. rewrite app_length, firstn_length. lia. }
    destruct (length (it_buffer it) <? it_tail it)%nat; [apply sized_refl|]. destruct e as [x|].
    + destruct (err_eqb_eof x && (0 <? length b)%nat); exact S.
    + destruct (0 <? length b)%nat; [exact S|]. eapply sized_trans; [exact S|]. apply IH. exact U.
  - destruct (rd_read (length (it_buffer it)) r) as [[b e] r'] eqn:R. apply rd_read_len in R. destruct R as [R1 R].
    set (it' := mkIter _ _ _ _ _ _ _ _ _ _ _).
    assert (S : sized it it').
    { assert (L : length (it_buffer it') = length (it_buffer it)).
      { cbn [it' it_buffer]. rewrite app_length, skipn_length. lia. }
      split; [reflexivity|]. split; [|intros; repeat split; auto].
      unfold buffers, unread. rewrite Er, L. cbn [it' it_fixbuf it_reader]. lia. }
    destruct e as [x|].
    + destruct (err_eqb_eof x && (0 <? length b)%nat); exact S.
    + destruct (0 <? length b)%nat; [exact S|]. eapply sized_trans; [exact S|]. apply IH. exact U.
Qed.
Lemma kp_more : keeps readMore.
Proof. intros it. apply kp_more_loop. Qed.
Lemma kp_setTmp b : keeps (setTmp b).
Proof. intros it U. repeat split; auto. Qed.
Lemma kp_bind {A B} (m : M A) (f : A -> M B) : keeps m -> (forall a, keeps (f a)) -> keeps (bind m f).
Proof.
  intros H K. eapply kp_ext; [apply (kp_then m (fun r => match r with Ok a => f a | Err e => fail e | Panic => panic | OutOfFuel => outOfFuel end)); auto|].
  - intros [a|e| |]; auto using kp_fail, kp_panic, kp_fuel.
  - intros it. unfold bind. destruct (m it) as [[a|e| |] it']; auto.
Qed.
(** a function that looks at its iterator first *)
Lemma kp_see {A} (k : iter -> M A) : (forall x, keeps (k x)) -> True -> keeps (fun it => k it it).
Proof. intros H _ it. apply H. Qed.
Lemma kp_head {A} (f : iter -> nat) (m : M A) : keeps m -> True -> keeps (fun it => m (set_head (f it) it)).
Proof. intros H _ it U. exact (H (set_head (f it) it) U). Qed.
Lemma kp_incHead : keeps incHead.
Proof. apply (kp_head (fun it => S (it_head it)) (fun it => (Ok tt, it))); auto using kp_pure. Qed.
Lemma kp_peekHead : keeps peekHead.
Proof. intros it U. unfold peekHead. destruct (nth_error _ _); apply sized_refl. Qed.
Lemma kp_if {A} (b : iter -> bool) (m m' : M A) : keeps m -> keeps m' -> True -> keeps (fun it => if b it then m it else m' it).
Proof. intros P P' _ it. destruct (b it); auto. Qed.
(** a loop bounded by the input that is left *)
Lemma kp_left {A} (f : nat -> M A) : (forall n, keeps (f n)) -> keeps (fun it => f (S (left_total it)) it).
Proof. intros H it. apply H. Qed.
Lemma kp_pool {A} (f : stack -> M A) : (forall s, keeps (f s)) -> keeps (fun it => f (it_pool it) it).
Proof. intros H it. apply H. Qed.
Lemma kp_nextByte : keeps nextByte.
Proof. apply (kp_if (fun it => (it_head it =? it_tail it)%nat)); auto using kp_bind, kp_more, kp_peekHead. Qed.

(** the scanning loops *)
Definition sok {S A} (x : sres S A) : Prop :=
  match x with SStop _ m => keeps m | SResume m => keeps m | _ => True end.
Definition iok {S A} (x : ires S A) : Prop := match x with IExit _ x => sok x | _ => True end.
Lemma scan_in_ok {S A} (body : iter -> nat -> S -> Z -> sres S A) it : (forall i s c, sok (body it i s c)) -> forall n i s, iok (scan_in body it n i s).
Proof.
  intros H. induction n as [|n IH]; intros i s; simpl; [exact I|]. destruct (nth_error _ _) as [c|]; [|exact I].
  specialize (H i s c). destruct (body it i s c); auto; apply H.
Qed.
Lemma kp_scan_loop {S A} (body : iter -> nat -> S -> Z -> sres S A) atEnd onErr :
  (forall it i s c, sok (body it i s c)) -> (forall s e, keeps (onErr s e)) ->
  forall f s, keeps (scan_loop f body atEnd onErr s).
Proof.
  intros B K. induction f as [|f IH]; intros s; [apply kp_pure|].
  apply (kp_see (fun (x : iter) (it : iter) =>
    match scan_in body x (it_tail x - it_head x) (it_head x) s with
      | IPanic => (Panic, it)
      | IExit i (SStop k m) => m (set_head (i + k) it)
      | IExit i (SFail e) => (Err e, it)
      | IExit i (SResume m) =>
          match m (set_head (Datatypes.S i) it) with
          | (Ok s', it') => scan_loop f body atEnd onErr s' it'
          | (Err e, it') => (Err e, it')
          | (Panic, it') => (Panic, it')
          | (OutOfFuel, it') => (OutOfFuel, it')
          end
      | IExit i (SNext _) => (Panic, it)
      | IEnd s' =>
          match atEnd x s' with
          | None => (Panic, it)
          | Some s'' =>
              match readMore (set_head (it_tail x) it) with
              | (Ok _, it') => scan_loop f body atEnd onErr s'' it'
              | (Err e, it') => onErr s'' e it'
              | (Panic, it') => (Panic, it')
              | (OutOfFuel, it') => (OutOfFuel, it')
              end
          end
    end)); [|exact I].
  intros x. pose proof (scan_in_ok body x (B x) (it_tail x - it_head x) (it_head x) s) as I.
  destruct (scan_in _ _ _ _ _) as [s'|i [s'|n m|e|m]|]; simpl in I; try apply kp_pure.
  - destruct (atEnd x s') as [s''|]; [|apply kp_pure].
    eapply kp_ext; [apply (kp_then (fun it => readMore (set_head (it_tail x) it))
       (fun r => match r with Ok _ => scan_loop f body atEnd onErr s'' | Err e => onErr s'' e | Panic => panic | OutOfFuel => outOfFuel end))|].
    + apply (kp_head (fun _ => it_tail x)); auto using kp_more.
    + intros [v|e| |]; auto using kp_panic, kp_fuel.
    + intros it. cbn beta. destruct (readMore _) as [[v|e| |] it']; reflexivity.
  - apply (kp_head (fun _ => (i + n)%nat)); auto.
  - eapply kp_ext; [apply (kp_then (fun it => m (set_head (Datatypes.S i) it))
       (fun r => match r with Ok s' => scan_loop f body atEnd onErr s' | Err e => fail e | Panic => panic | OutOfFuel => outOfFuel end))|].
    + apply (kp_head (fun _ => Datatypes.S i)); auto.
    + intros [v|e| |]; auto using kp_panic, kp_fuel, kp_fail.
    + intros it. cbn beta. destruct (m _) as [[v|e| |] it']; reflexivity.
Qed.
Lemma kp_scan {S A} (body : iter -> nat -> S -> Z -> sres S A) atEnd onErr s :
  (forall it i s c, sok (body it i s c)) -> (forall s e, keeps (onErr s e)) -> keeps (scan body atEnd onErr s).
Proof. intros B K it. apply kp_scan_loop; assumption. Qed.
Lemma kp_errReturn {S A} (s : S) e : keeps (@errReturn S A s e). Proof. apply kp_fail. Qed.
Lemma kp_eofReturn {S A} (f : S -> M A) s e : (forall s, keeps (f s)) -> keeps (eofReturn f s e).
Proof. intros H. unfold eofReturn. destruct (err_eqb_eof e); auto using kp_fail. Qed.

Create HintDb kp.
Hint Resolve kp_ret kp_fail kp_panic kp_fuel kp_lift kp_more kp_setTmp kp_incHead kp_peekHead kp_nextByte kp_errReturn : kp.
(** takes a function apart *)
Ltac kp1 :=
  match goal with
  | |- forall _, _ => intros
  | |- sok (match ?x with _ => _ end) => destruct x
  | |- sok (SNext _) => exact I
  | |- sok (SFail _) => exact I
  | |- sok (SStop _ _) => cbn [sok]
  | |- sok (SResume _) => cbn [sok]
  | |- sok (let '(_, _) := ?x in _) => destruct x
  | |- sok ?x => progress cbv beta zeta
  | |- True => exact I
  | |- @eq _ _ _ => solve [reflexivity | cbv beta; reflexivity]
  | |- keeps _ => solve [auto with kp]
  | |- keeps (bind _ _) => apply kp_bind
  | |- keeps (scan _ _ _ _) => apply kp_scan
  | |- keeps (eofReturn _ _ _) => apply kp_eofReturn
  | |- keeps (match ?x with _ => _ end) => destruct x
  | |- keeps ((fun _ => _) _) => cbv beta
  | |- keeps (let _ := _ in _) => cbv zeta
  end.
Ltac kp := repeat kp1.
Lemma kp_expectBytes s : keeps (expectBytes s). Proof. unfold expectBytes. kp. Qed.
Lemma kp_nextToken : keeps nextToken. Proof. unfold nextToken. kp. Qed.
Hint Resolve kp_expectBytes kp_nextToken : kp.
Lemma kp_skipExponentLoop : keeps (skipExponentLoop). Proof. unfold skipExponentLoop. kp. Qed.
Hint Resolve kp_skipExponentLoop : kp.
Lemma kp_skipExponentPart : keeps (skipExponentPart). Proof. unfold skipExponentPart. kp. Qed.
Hint Resolve kp_skipExponentPart : kp.
Lemma kp_skipFractionLoop : keeps (skipFractionLoop). Proof. unfold skipFractionLoop. kp. Qed.
Hint Resolve kp_skipFractionLoop : kp.
Lemma kp_skipFractionPart : keeps (skipFractionPart). Proof. unfold skipFractionPart. kp. Qed.
Hint Resolve kp_skipFractionPart : kp.
Lemma kp_skipIntegerLoop : keeps (skipIntegerLoop). Proof. unfold skipIntegerLoop. kp. Qed.
Hint Resolve kp_skipIntegerLoop : kp.
Lemma kp_peekOrEOF : keeps peekOrEOF.
Proof.
  set (k := do c <- peekHead; ret (Some c)). assert (K : keeps k) by (unfold k; kp).
  apply (kp_if (fun it => (it_head it =? it_tail it)%nat)
    (fun it => match readMore it with
    | (Ok _, it') => k it'
    | (Err e, it') => if err_eqb_eof e then (Ok None, it') else (Err e, it')
    | (Panic, it') => (Panic, it')
    | (OutOfFuel, it') => (OutOfFuel, it')
    end) k); auto.
  eapply kp_ext; [apply (kp_then readMore (fun r => match r with
    | Ok _ => k
    | Err x => if err_eqb_eof x then ret None else fail x
    | Panic => panic
    | OutOfFuel => outOfFuel
    end)); kp; auto|].
  intros it. cbv beta. destruct (readMore it) as [[v|e| |] it']; auto. now destruct (err_eqb_eof e).
Qed.
Hint Resolve kp_peekOrEOF : kp.
Lemma kp_skipNumber c: keeps (skipNumber c). Proof. unfold skipNumber. kp. Qed.
Hint Resolve kp_skipNumber : kp.
Lemma kp_skipU4 : keeps (skipU4). Proof. unfold skipU4. kp. Qed.
Hint Resolve kp_skipU4 : kp.
Lemma kp_skipEscapedChar : keeps (skipEscapedChar). Proof. unfold skipEscapedChar. kp. Qed.
Hint Resolve kp_skipEscapedChar : kp.
Lemma kp_skipString : keeps (skipString). Proof. unfold skipString. kp. Qed.
Hint Resolve kp_skipString : kp.
Lemma kp_skipObjectField : keeps (skipObjectField). Proof. unfold skipObjectField. kp. Qed.
Hint Resolve kp_skipObjectField : kp.
Lemma kp_takeToken : keeps (takeToken). Proof. unfold takeToken. kp. Qed.
Hint Resolve kp_takeToken : kp.
Lemma kp_skipLeaf c: keeps (skipLeaf c). Proof. unfold skipLeaf. kp. Qed.
Hint Resolve kp_skipLeaf : kp.
Lemma kp_skipWithStack_loop f : forall top s, keeps (skipWithStack_loop f top s).
Proof. induction f; intros; cbn [skipWithStack_loop]; kp. Qed.
Hint Resolve kp_skipWithStack_loop : kp.
Lemma kp_skipWithStack top s : keeps (skipWithStack top s).
Proof. apply (kp_left (fun n => skipWithStack_loop n top s)). kp. Qed.
Hint Resolve kp_skipWithStack : kp.
Lemma kp_skipArray_loop f : forall c, keeps (skipArray_loop f c).
Proof.
  induction f; intros; cbn [skipArray_loop]; kp; [apply (kp_pool (fun q => skipWithStack stackElementObjectBegin (initArray q)))|
    apply (kp_pool (fun q => skipWithStack stackElementArrayBegin (initArray q)))]; kp.
Qed.
Hint Resolve kp_skipArray_loop : kp.
Lemma kp_skipArrayWithStack : keeps skipArrayWithStack.
Proof. unfold skipArrayWithStack; kp. apply (kp_left (fun n => skipArray_loop n a)); kp. Qed.
Hint Resolve kp_skipArrayWithStack : kp.
Lemma kp_skipObject_loop f : forall c, keeps (skipObject_loop f c).
Proof.
  induction f; intros; cbn [skipObject_loop]; kp; [apply (kp_pool (fun q => skipWithStack stackElementObjectBegin (initObject q)))|
    apply (kp_pool (fun q => skipWithStack stackElementArrayBegin (initObject q)))]; kp.
Qed.
Hint Resolve kp_skipObject_loop : kp.
Lemma kp_skipObjectWithStack : keeps skipObjectWithStack.
Proof. unfold skipObjectWithStack; kp. apply (kp_left (fun n => skipObject_loop n a)); kp. Qed.
Hint Resolve kp_skipObjectWithStack : kp.
Lemma kp_skipFunctions c: keeps (skipFunctions c). Proof. unfold skipFunctions. kp. Qed.
Hint Resolve kp_skipFunctions : kp.
Lemma kp_Skip : keeps (Skip). Proof. unfold Skip. kp. Qed.
Hint Resolve kp_Skip : kp.
Lemma kp_SkipArray : keeps (SkipArray). Proof. unfold SkipArray. kp. Qed.
Hint Resolve kp_SkipArray : kp.
Lemma kp_SkipObject : keeps (SkipObject). Proof. unfold SkipObject. kp. Qed.
Hint Resolve kp_SkipObject : kp.
Lemma kp_SkipNumber : keeps (SkipNumber). Proof. unfold SkipNumber. kp. Qed.
Hint Resolve kp_SkipNumber : kp.
Lemma kp_SkipString : keeps (SkipString). Proof. unfold SkipString. kp. Qed.
Hint Resolve kp_SkipString : kp.
Lemma kp_sliceOf (f : iter -> option bytes) : keeps (fun it => match f it with Some b => (Ok b, it) | None => (Panic, it) end).
Proof. intros it U. destruct (f it); apply sized_refl. Qed.
Lemma kp_sliceFrom a : keeps (sliceFrom a).
Proof. apply (kp_sliceOf (fun it => Base.slice (it_buffer it) a (it_head it))). Qed.
Hint Resolve kp_sliceFrom : kp.
Lemma kp_withCapture {A} (m : M A) : cap = true -> keeps m -> keeps (withCapture m).
Proof.
  intros Q P it U. unfold withCapture. specialize (P (set_capture true it) U). destruct (m (set_capture true it)) as [r it']. cbn [snd] in *.
  destruct P as (P2 & P3 & P4). split; [exact P2|]. split; [exact P3|]. rewrite Q. discriminate.
Qed.
Lemma kp_SkipRaw : cap = true -> keeps SkipRaw.
Proof.
  intros Q. unfold SkipRaw. kp. apply (kp_see (fun x => withCapture (incHead ;; skipFunctions a) ;; sliceFrom (it_head x))); auto. intros x.
  apply kp_bind; [apply kp_withCapture; [exact Q|]|]; kp.
Qed.
Hint Resolve kp_SkipRaw : kp.
Lemma kp_AppendRaw b : cap = true -> keeps (AppendRaw b). Proof. intros Q. unfold AppendRaw. kp. Qed.
Hint Resolve kp_AppendRaw : kp.
Lemma kp_ReadRaw : cap = true -> keeps (ReadRaw). Proof. intros Q. unfold ReadRaw. kp. Qed.
Hint Resolve kp_ReadRaw : kp.
Lemma kp_readNumberAsString c : cap = true -> keeps (readNumberAsString c).
Proof.
  intros Q. apply (kp_see (fun x => withCapture (skipNumber c ;; sliceFrom (it_head x - 1)))); auto. intros x. apply kp_withCapture; [exact Q|]; kp.
Qed.
Hint Resolve kp_readNumberAsString : kp.
Lemma kp_ReadNumber : cap = true -> keeps (ReadNumber). Proof. intros Q. unfold ReadNumber. kp. Qed.
Hint Resolve kp_ReadNumber : kp.
Lemma kp_ReadNull : keeps (ReadNull). Proof. unfold ReadNull. kp. Qed.
Hint Resolve kp_ReadNull : kp.
Lemma kp_ReadBool : keeps (ReadBool). Proof. unfold ReadBool. kp. Qed.
Hint Resolve kp_ReadBool : kp.
Lemma kp_readU4 : keeps (readU4). Proof. unfold readU4. kp. Qed.
Hint Resolve kp_readU4 : kp.
Lemma kp_readSurrogate f : forall b r, keeps (readSurrogate f b r).
Proof. induction f; intros; cbn [readSurrogate]; kp. Qed.
Hint Resolve kp_readSurrogate : kp.
Lemma kp_readEscapedChar b : keeps (readEscapedChar b).
Proof. unfold readEscapedChar. kp. apply (kp_left (fun n => readSurrogate n b a1)). kp. Qed.
Hint Resolve kp_readEscapedChar : kp.
Lemma kp_readStringAsSliceSlow b: keeps (readStringAsSliceSlow b). Proof. unfold readStringAsSliceSlow. kp. Qed.
Hint Resolve kp_readStringAsSliceSlow : kp.
Lemma kp_readStringFast n : forall i, keeps (readStringFast n i).
Proof.
  induction n as [|n IH]; intros i.
  - apply (kp_see (fun x it => match seg x (it_tail x) with
      | None => (Panic, it)
      | Some buf => (readMore ;; do b <- readStringAsSliceSlow buf; setTmp b ;; ret b) (set_head (it_tail x) it) end)); auto.
    intros x. destruct (seg x _) as [buf|]; [|apply kp_pure]. apply (kp_head (fun _ => it_tail x)); auto. kp.
  - apply (kp_see (fun x it => match nth_error (it_buffer x) i with
      | None => (Panic, it)
      | Some c =>
          if c <? cSPACE then (Err (EInvalidStringChar c), it)
          else if c =? cQUOTE then
            match seg x i with
            | None => (Panic, it)
            | Some buf => (setTmp buf ;; ret buf) (set_head (S i) it)
            end
          else if c =? cBSLASH then
            match seg x i with
            | None => (Panic, it)
            | Some buf =>
                (do b <- readEscapedChar buf;
                 do b' <- readStringAsSliceSlow b;
                 setTmp b' ;; ret b') (set_head (S i) it)
            end
          else readStringFast n (S i) it
      end)); auto.
    intros x. destruct (nth_error _ _) as [c|]; [|apply kp_pure]. destruct (c <? cSPACE); [apply kp_pure|].
    destruct (c =? cQUOTE); [|destruct (c =? cBSLASH)]; auto; (destruct (seg x i) as [buf|]; [|apply kp_pure]); apply (kp_head (fun _ => S i)); auto; kp.
Qed.
Hint Resolve kp_readStringFast : kp.
Lemma kp_readStringAsSlice : keeps readStringAsSlice.
Proof. apply (kp_see (fun x => readStringFast (it_tail x - it_head x) (it_head x))); kp. Qed.
Hint Resolve kp_readStringAsSlice : kp.
Lemma kp_expectQuote : keeps (expectQuote). Proof. unfold expectQuote. kp. Qed.
Hint Resolve kp_expectQuote : kp.
Lemma kp_ReadStringAsSlice : keeps (ReadStringAsSlice). Proof. unfold ReadStringAsSlice. kp. Qed.
Hint Resolve kp_ReadStringAsSlice : kp.
Lemma kp_ReadStringAndAppend b: keeps (ReadStringAndAppend b). Proof. unfold ReadStringAndAppend. kp. Qed.
Hint Resolve kp_ReadStringAndAppend : kp.
Lemma kp_readString : keeps (readString). Proof. unfold readString. kp. Qed.
Hint Resolve kp_readString : kp.
Lemma kp_ReadString : keeps (ReadString). Proof. unfold ReadString. kp. Qed.
Hint Resolve kp_ReadString : kp.
Lemma kp_readObjectFieldAsSlice : keeps (readObjectFieldAsSlice). Proof. unfold readObjectFieldAsSlice. kp. Qed.
Hint Resolve kp_readObjectFieldAsSlice : kp.
Lemma kp_readObjectField : keeps (readObjectField). Proof. unfold readObjectField. kp. Qed.
Hint Resolve kp_readObjectField : kp.
Lemma kp_readUintLoop w nd x: keeps (readUintLoop w nd x). Proof. unfold readUintLoop. kp. Qed.
Hint Resolve kp_readUintLoop : kp.
Lemma kp_readUintN w nd c: keeps (readUintN w nd c). Proof. unfold readUintN. kp. Qed.
Hint Resolve kp_readUintN : kp.
Lemma kp_readUint8 c: keeps (readUint8 c). Proof. unfold readUint8. kp. Qed.
Hint Resolve kp_readUint8 : kp.
Lemma kp_readIntN w f c : (forall c, keeps (f c)) -> keeps (readIntN w f c). Proof. intros. unfold readIntN. kp. Qed.
Hint Resolve kp_readIntN : kp.
Lemma kp_readIntOf s w c : keeps (readIntOf s w c).
Proof. destruct s, w; cbn [readIntOf]; unfold readInt8, readInt16, readInt32, readInt64, readUint16, readUint32, readUint64; auto with kp; apply kp_readIntN; unfold readUint16, readUint32, readUint64; auto with kp. Qed.
Hint Resolve kp_readIntOf : kp.
Section Float.
Variable F : floatOps.
Lemma kp_parseFloat b: keeps (parseFloat F b). Proof. unfold parseFloat. kp. Qed.
Hint Resolve kp_parseFloat : kp.
Lemma kp_readExponentLoop b: keeps (readExponentLoop F b). Proof. unfold readExponentLoop. kp. Qed.
Hint Resolve kp_readExponentLoop : kp.
Lemma kp_readFloatExponentPart b: keeps (readFloatExponentPart F b). Proof. unfold readFloatExponentPart. kp. Qed.
Hint Resolve kp_readFloatExponentPart : kp.
Lemma kp_readFractionLoop b: keeps (readFractionLoop F b). Proof. unfold readFractionLoop. kp. Qed.
Hint Resolve kp_readFractionLoop : kp.
Lemma kp_readFloatFractionPart b: keeps (readFloatFractionPart F b). Proof. unfold readFloatFractionPart. kp. Qed.
Hint Resolve kp_readFloatFractionPart : kp.
Lemma kp_readIntegerLoop b: keeps (readIntegerLoop F b). Proof. unfold readIntegerLoop. kp. Qed.
Hint Resolve kp_readIntegerLoop : kp.
Lemma kp_readPositiveFloat c: keeps (readPositiveFloat F c). Proof. unfold readPositiveFloat. kp. Qed.
Hint Resolve kp_readPositiveFloat : kp.
Lemma kp_readFloat c: keeps (readFloat F c). Proof. unfold readFloat. kp. Qed.
Hint Resolve kp_readFloat : kp.
Lemma kp_ReadFloat : keeps (ReadFloat F ). Proof. unfold ReadFloat. kp. Qed.
Hint Resolve kp_ReadFloat : kp.
Hypothesis floats : cap = true \/ u = false.
Lemma kp_readNumberValue c : keeps (readNumberValue F c).
Proof.
  intros it U. unfold readNumberValue.
  assert (K : keeps (do f <- readFloat F c; ret (GFloat f))) by kp.
  assert (L : cap = true -> keeps (do s <- readNumberAsString c; ret (GNumber (F := F) s))) by (intros; kp).
  destruct (it_useNumber it) eqn:N; [|now apply K; rewrite N]. apply L; [|now rewrite N]. destruct floats as [Q|Q]; auto. congruence.
Qed.
Hint Resolve kp_readNumberValue : kp.
Lemma kp_readLeaf c : keeps (readLeaf F c). Proof. unfold readLeaf. kp. Qed.
Hint Resolve kp_readLeaf : kp.
Lemma kp_opt {A} (o : option A) : keeps (opt o). Proof. unfold opt. kp. Qed.
Hint Resolve kp_opt : kp.
Lemma kp_readWithStack_loop f : forall top s ns, keeps (readWithStack_loop F f top s ns).
Proof. induction f; intros; cbn [readWithStack_loop]; kp. Qed.
Hint Resolve kp_readWithStack_loop : kp.
Lemma kp_readWithStack top s ns : keeps (readWithStack F top s ns).
Proof. apply (kp_left (fun n => readWithStack_loop F n top s ns)). kp. Qed.
Hint Resolve kp_readWithStack : kp.
Lemma kp_readArray_loop f : forall c l, keeps (readArray_loop F f c l).
Proof.
  induction f; intros; cbn [readArray_loop]; kp;
    [apply (kp_pool (fun q => readWithStack F stackElementObjectBegin (initArray q) (ns_pushObject F [] (ns_initArray F l))))|
     apply (kp_pool (fun q => readWithStack F stackElementArrayBegin (initArray q) (ns_pushArray F [] (ns_initArray F l))))]; kp.
Qed.
Hint Resolve kp_readArray_loop : kp.
Lemma kp_readArrayWithStack : keeps (readArrayWithStack F).
Proof. unfold readArrayWithStack. kp. apply (kp_left (fun n => readArray_loop F n a [])). kp. Qed.
Hint Resolve kp_readArrayWithStack : kp.
Lemma kp_readObject_loop f : forall c l, keeps (readObject_loop F f c l).
Proof.
  induction f; intros; cbn [readObject_loop]; kp;
    [apply (kp_pool (fun q => readWithStack F stackElementObjectBegin (initObject q) (ns_pushObject F a0 (ns_initObject F l))))|
     apply (kp_pool (fun q => readWithStack F stackElementArrayBegin (initObject q) (ns_pushArray F a0 (ns_initObject F l))))]; kp.
Qed.
Hint Resolve kp_readObject_loop : kp.
Lemma kp_readObjectWithStack : keeps (readObjectWithStack F).
Proof. unfold readObjectWithStack. kp. apply (kp_left (fun n => readObject_loop F n a [])). kp. Qed.
Hint Resolve kp_readObjectWithStack : kp.
Lemma kp_Read : keeps (Read F).
Proof. unfold Read, readFunctions. kp. Qed.
End Float.
Hint Resolve kp_ReadFloat : kp.

Section Val.
Variables (F32 F64 : floatOps) (C : custom) (E : env F32 F64 C) (sf : Z -> Z) (cs : bool).
Definition dkeeps (d : decoder F32 F64 C) : Prop := forall o old, keeps (d o old).
Lemma kp_readNull (v : ModelVal.gval F32 F64 C) : keeps (readNull F32 F64 C v). Proof. unfold readNull. kp. Qed.
Hint Resolve kp_readNull : kp.
Lemma kp_boolDecoder : dkeeps (boolDecoder F32 F64 C). Proof. intros o old. unfold boolDecoder. kp. Qed.
Lemma kp_stringDecoder : dkeeps (stringDecoder F32 F64 C). Proof. intros o old. unfold stringDecoder. kp. Qed.
Lemma kp_intDecoder s w : dkeeps (intDecoder F32 F64 C s w). Proof. intros o old. unfold intDecoder. kp. Qed.
Lemma kp_floatDecoder F i : dkeeps (floatDecoder F32 F64 C F i). Proof. intros o old. unfold floatDecoder. kp. Qed.
Lemma kp_jsonNumberDecoder : cap = true -> dkeeps (jsonNumberDecoder F32 F64 C). Proof. intros Q o old. unfold jsonNumberDecoder. kp. Qed.
Lemma kp_jsonRawMessageDecoder : cap = true -> dkeeps (jsonRawMessageDecoder F32 F64 C). Proof. intros Q o old. unfold jsonRawMessageDecoder. kp. Qed.
Lemma kp_jsonUnmarshalerDecoder i : cap = true -> dkeeps (jsonUnmarshalerDecoder F32 F64 C i). Proof. intros Q o old. unfold jsonUnmarshalerDecoder. kp. Qed.
Lemma kp_textUnmarshalerDecoder i : dkeeps (textUnmarshalerDecoder F32 F64 C i). Proof. intros o old. unfold textUnmarshalerDecoder. kp. Qed.
Hint Resolve kp_boolDecoder kp_stringDecoder kp_intDecoder kp_floatDecoder kp_jsonNumberDecoder kp_jsonRawMessageDecoder
  kp_jsonUnmarshalerDecoder kp_textUnmarshalerDecoder : kp.
Lemma kp_pointerDecoder z d : dkeeps d -> dkeeps (pointerDecoder F32 F64 C z d).
Proof. intros D o old. unfold pointerDecoder. kp; apply D. Qed.
Lemma kp_arrayLoop f d : dkeeps d -> forall n a, keeps (arrayLoop F32 F64 C f d n a).
Proof. intros D. induction f; intros; cbn [arrayLoop]; kp; apply D. Qed.
Lemma kp_arrayDecoder z d : dkeeps d -> dkeeps (arrayDecoder F32 F64 C z d).
Proof. intros D o old. unfold arrayDecoder. kp. apply (kp_left (fun n => arrayLoop F32 F64 C n d 0 l)). intros. now apply kp_arrayLoop. Qed.
Lemma kp_sliceLoop f z d : dkeeps d -> forall n sh, keeps (sliceLoop F32 F64 C f z d n sh).
Proof. intros D. induction f; intros; cbn [sliceLoop]; kp; apply D. Qed.
Lemma kp_sliceBody b : keeps (sliceBody b).
Proof. apply (kp_sliceOf (fun it => Base.slice (it_buffer it) b (it_head it - 1))). Qed.
Hint Resolve kp_sliceBody : kp.
Lemma kp_startCapture {A} (m : M A) : cap = true -> keeps m -> keeps (startCapture m).
Proof.
  intros Q P it U. unfold startCapture. specialize (P (set_capture true it) U). destruct (m (set_capture true it)) as [r it']. cbn [snd] in *.
  destruct P as (P2 & P3 & P4). destruct r; (split; [exact P2|]); (split; [exact P3|]); rewrite Q; discriminate.
Qed.
Lemma kp_readBase64 : cap = true -> keeps (readBase64 F32 F64 C).
Proof.
  intros Q. unfold readBase64. kp. apply (kp_see (fun x => do buf <- startCapture (skipString ;; sliceBody (it_head x));
      match b64decode buf with
      | Some data => ret (VSlice (Some (map VInt data)))
      | None => fail CorruptInputError
      end)); auto. intros x. apply kp_bind; [apply kp_startCapture; [exact Q|]|]; kp.
Qed.
Hint Resolve kp_readBase64 : kp.
Lemma kp_sliceDecoder b z d : cap = true \/ b = false -> dkeeps d -> dkeeps (sliceDecoder F32 F64 C b z d).
Proof.
  intros Q D o old. unfold sliceDecoder. assert (B : keeps (if negb b then fail (EUnexpectedByte cQUOTE cLBRACK c_n) else readBase64 F32 F64 C)) by (destruct Q as [Q|Q]; [|rewrite Q]; kp).
  destruct b; cbn [negb] in *; kp.
  all: apply (kp_left (fun n => sliceLoop F32 F64 C n z d 0 (unsafeMakeSlice z 0 0))); intros; now apply kp_sliceLoop.
Qed.
Lemma kp_kindKeyDecoder kd d : kindKeyDecoder F32 F64 C kd = Some d -> dkeeps d.
Proof. destruct kd; intros [= <-]; auto with kp. Qed.
Lemma kp_keyDecoder k d : keyDecoder F32 F64 C k = Some d -> dkeeps d.
Proof. destruct k as [| |kd [id|] mar]; cbn [keyDecoder]; try apply kp_kindKeyDecoder. intros [= <-]. auto with kp. Qed.
Lemma kp_mapLoop f k kd z d : dkeeps kd -> dkeeps d -> forall m, keeps (mapLoop F32 F64 C f k kd z d m).
Proof. intros K D. induction f; intros; cbn [mapLoop]; kp; try apply K; apply D. Qed.
Lemma kp_mapDecoder k kd z d : dkeeps kd -> dkeeps d -> dkeeps (mapDecoder F32 F64 C k kd z d).
Proof.
  intros K D o old. unfold mapDecoder. kp.
  apply (kp_left (fun n => mapLoop F32 F64 C n k kd z d _)). intros. now apply kp_mapLoop.
Qed.
Lemma kp_follow path d : (forall v, keeps (d v)) -> forall v, keeps (follow F32 F64 C E path d v).
Proof. intros D. induction path as [|[i|al] path IH]; intros v; cbn [follow]; kp; auto. Qed.
Lemma kp_getDisallow : keeps getDisallow.
Proof. apply (kp_see (fun x it => (Ok (it_disallow x), it))); auto. intros; apply kp_pure. Qed.
Hint Resolve kp_getDisallow : kp.
Lemma kp_structLoop f find fields : (forall i fi, nth_error fields i = Some fi -> dkeeps (df_decoder F32 F64 C fi)) ->
  forall v, keeps (structLoop F32 F64 C E f find fields v).
Proof.
  intros D. assert (Fl : forall i v, keeps (match nth_error fields i with
    | None => panic | Some fi => follow F32 F64 C E (df_path F32 F64 C fi) (df_decoder F32 F64 C fi (mkOpts false (df_quoted F32 F64 C fi))) v end)).
  { intros i v. destruct (nth_error fields i) as [fi|] eqn:N; [|apply kp_panic]. apply kp_follow. intros. eapply D; eauto. }
  induction f; intros; cbn [structLoop]; kp.
Qed.
Lemma kp_structDecoder find fields : (forall i fi, nth_error fields i = Some fi -> dkeeps (df_decoder F32 F64 C fi)) ->
  dkeeps (structDecoder F32 F64 C E find fields).
Proof.
  intros D o old. unfold structDecoder. kp. apply (kp_left (fun n => structLoop F32 F64 C E n find fields old)). intros. now apply kp_structLoop.
Qed.
Lemma kp_emptyObjectDecoder : dkeeps (emptyObjectDecoder F32 F64 C). Proof. intros o old. unfold emptyObjectDecoder. kp. Qed.
Hint Resolve kp_emptyObjectDecoder : kp.
Lemma kp_efaceDecoder d : cap = true -> (forall t, dkeeps (d t)) -> dkeeps (efaceDecoder F32 F64 C E d).
Proof. intros Q D o old. unfold efaceDecoder. assert (keeps (Read F64)) by (apply kp_Read; auto). kp; apply D. Qed.
Lemma kp_ifaceDecoder d : (forall t, dkeeps (d t)) -> dkeeps (ifaceDecoder F32 F64 C E d).
Proof. intros D o old. unfold ifaceDecoder. kp; apply D. Qed.
(** a set of types that are read without capturing *)
Variable P : ty -> Prop.
Hypothesis closed : cap = true \/ forall t, P t -> still E P t.
Lemma kp_decode f : forall t, cap = true \/ P t -> dkeeps (decode F32 F64 C E sf cs f t).
Proof.
  induction f as [|f IH]; intros t Pt; [intros o old; apply kp_fail|].
  assert (St : cap = true \/ still E P t) by (destruct closed as [Q|Q], Pt; auto). clear Pt.
  destruct t; cbn [decode still] in *; auto with kp; try (intros o old; apply kp_fail).
  - apply kp_jsonNumberDecoder. tauto.
  - apply kp_jsonRawMessageDecoder. tauto.
  - apply kp_jsonUnmarshalerDecoder. tauto.
  - now apply kp_pointerDecoder, IH.
  - now apply kp_arrayDecoder, IH.
  - apply kp_sliceDecoder; [|apply IH; tauto]. destruct St as [Q|[B _]]; auto. right.
    destruct (under F32 F64 C E t) as [|[|] [| | |]| | | | | | | | | | | | | | | |]; auto. now elim B.
  - destruct (keyDecoder F32 F64 C k) as [kd|] eqn:K; [|intros o old; apply kp_fail]. apply kp_mapDecoder; auto. eapply kp_keyDecoder; eauto.
  - destruct fields as [|fd fields]; auto with kp. apply kp_structDecoder.
    intros i fi H. rewrite nth_error_map in H. destruct (nth_error (fd :: fields) i) as [g|] eqn:N; [|discriminate].
    injection H as <-. apply IH. destruct St as [Q|St]; auto. right. apply (proj1 (Forall_forall _ _) St). eapply nth_error_In; eauto.
  - apply kp_efaceDecoder; [tauto|]. intros t. apply IH. tauto.
  - apply kp_ifaceDecoder. intros t. apply IH. tauto.
Qed.
Lemma kp_unmarshal f t old : cap = true \/ P t -> keeps (unmarshal F32 F64 C E sf cs f t old).
Proof.
  intros Pt. unfold unmarshal, ReadVal. apply kp_bind; [now apply kp_decode|]. intros v.
  eapply kp_ext; [apply (kp_then nextToken (fun r => match r with
    | Ok _ => fail EDataRemained
    | Err e => if err_eqb_eof e then ret v else fail e
    | Panic => panic
    | OutOfFuel => outOfFuel end)); kp|].
  intros it. cbv beta. destruct (nextToken it) as [[w|e| |] it']; auto. now destruct (err_eqb_eof e).
Qed.
End Val.
(** client programs *)
Lemma kp_arrayCB_loop {S} (cb : S -> M S) : (forall s, keeps (cb s)) -> forall f s, keeps (arrayCB_loop f cb s).
Proof. intros D. induction f as [|f IH]; intros s; cbn [arrayCB_loop]; kp. Qed.
Lemma kp_objectCB_loop {S} (cb : S -> bytes -> M S) : (forall s b, keeps (cb s b)) -> forall f s, keeps (objectCB_loop f cb s).
Proof. intros D. induction f as [|f IH]; intros s; cbn [objectCB_loop]; kp. Qed.
Lemma kp_ReadArrayCB {S} (cb : S -> M S) s : (forall s, keeps (cb s)) -> keeps (ReadArrayCB cb s).
Proof. intros D. unfold ReadArrayCB. kp. apply (kp_left (fun n => arrayCB_loop n cb s)). intros. now apply kp_arrayCB_loop. Qed.
Lemma kp_ReadObjectCB {S} (cb : S -> bytes -> M S) s : (forall s b, keeps (cb s b)) -> keeps (ReadObjectCB cb s).
Proof. intros D. unfold ReadObjectCB. kp. apply (kp_left (fun n => objectCB_loop n cb s)). intros. now apply kp_objectCB_loop. Qed.
Lemma kp_exec F32 F64 o : cap = true \/ calm u o = true -> keeps (exec F32 F64 o).
Proof.
  intros Q. destruct o; cbn [calm] in Q; try (assert (Q' : cap = true) by (destruct Q; [assumption|discriminate]));
    cbn [exec]; unfold as_out, readUintOp, readIntOp, ReadUint8, ReadUint16, ReadUint32, ReadUint64, ReadInt8, ReadInt16, ReadInt32, ReadInt64,
    NextValueType, ReadArrayBegin, ReadArrayMore, ReadObjectBegin, ReadObjectMore; kp;
    try solve [apply (kp_readIntOf false W16)|apply (kp_readIntOf false W32)|apply (kp_readIntOf false W64)|apply (kp_readIntOf true W8)|
      apply (kp_readIntOf true W16)|apply (kp_readIntOf true W32)|apply (kp_readIntOf true W64)].
  apply kp_Read. destruct Q as [Q|Q]; auto. right. now destruct u.
Qed.
Lemma kp_run F32 F64 {S} (p : prog F32 F64 S) : cap = true \/ calmly u p -> keeps (run p).
Proof.
  induction p as [s|e|o k IH|s cb IHc k IH|s cb IHc k IH]; cbn [run]; intros Q; kp.
  - apply kp_exec. destruct Q as [Q|Q]; auto. right. now apply Q.
  - apply IH. destruct Q as [Q|Q]; auto. right. now apply Q.
  - apply kp_ReadArrayCB. intros x. apply IHc. destruct Q as [Q|Q]; auto. right. now apply Q.
  - apply IH. destruct Q as [Q|Q]; auto. right. now apply Q.
  - apply kp_ReadObjectCB. intros x b. apply IHc. destruct Q as [Q|Q]; auto. right. now apply Q.
  - apply IH. destruct Q as [Q|Q]; auto. right. now apply Q.
Qed.
End Keeps.
