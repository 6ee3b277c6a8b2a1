(** The reading functions of the library use their iterator only as [prog] allows. *)
From Coq Require Import ZArith List Bool Lia Program.Basics String.
From Verif Require Import Base ModelIter ModelStack ModelSkip ModelStr ModelInt ModelFloat ModelRead ModelGrow ModelBase64 ModelVal ModelMem.
Import ListNotations.
Local Open Scope Z_scope.

(** a function together with a program for it *)
Record programmed {A} (m : M A) : Type := mkProg { code : prog (res A); code_ok : forall it, runV code it = m it }.
Arguments code {A m}.
Arguments code_ok {A m}.

Fixpoint pgBind {A B} (p : prog A) (k : A -> prog B) : prog B :=
  match p with
  | Done a => k a
  | See f => See (fun it => pgBind (f it) k)
  | More f => More (fun r => pgBind (f r) k)
  | Head n p => Head n (pgBind p k)
  | Capture b p => Capture b (pgBind p k)
  | Tmp xs p => Tmp xs (pgBind p k)
  end.
Lemma pgBind_ok {A B} (p : prog A) (k : A -> prog B) : forall it, runV (pgBind p k) it = let '(a, it') := runV p it in runV (k a) it'.
Proof. induction p; intros it; simpl; auto. destruct (readMore it) as [r it']. auto. Qed.

Lemma pg_ext {A} (m m' : M A) : programmed m -> (forall it, m it = m' it) -> programmed m'.
Proof. intros [p H] E. exists p. intros it. rewrite H. auto. Qed.
Lemma pg_pure {A} (r : res A) : programmed (fun it => (r, it)).
Proof. now exists (Done r). Qed.
Lemma pg_ret {A} (a : A) : programmed (ret a). Proof. apply pg_pure. Qed.
Lemma pg_fail {A} e : programmed (@fail A e). Proof. apply pg_pure. Qed.
Lemma pg_panic {A} : programmed (@panic A). Proof. apply pg_pure. Qed.
Lemma pg_fuel {A} : programmed (@outOfFuel A). Proof. apply pg_pure. Qed.
Lemma pg_lift {A} (r : res A) : programmed (lift r). Proof. apply pg_pure. Qed.
Lemma pg_more : programmed readMore.
Proof. exists (More (fun r => Done r)). intros it. simpl. now destruct (readMore it). Qed.
Lemma pg_setTmp b : programmed (setTmp b).
Proof. now exists (Tmp b (Done (Ok tt))). Qed.
(** a function after another one, whatever that one returned *)
Lemma pg_then {A B} (m : M A) (k : res A -> M B) : programmed m -> (forall r, programmed (k r)) -> programmed (fun it => let '(r, it') := m it in k r it').
Proof.
  intros [p H] K. exists (pgBind p (fun r => code (K r))). intros it. rewrite pgBind_ok, H. destruct (m it) as [r it']. apply code_ok.
Qed.
Lemma pg_bind {A B} (m : M A) (f : A -> M B) : programmed m -> (forall a, programmed (f a)) -> programmed (bind m f).
Proof.
  intros H K. eapply pg_ext; [apply (pg_then m (fun r => match r with Ok a => f a | Err e => fail e | Panic => panic | OutOfFuel => outOfFuel end)); auto|].
  - intros [a|e| |]; auto using pg_fail, pg_panic, pg_fuel.
  - intros it. unfold bind. destruct (m it) as [[a|e| |] it']; auto.
Qed.
(** a function that looks at its iterator first *)
Lemma pg_see {A} (k : iter -> M A) : (forall x, programmed (k x)) -> (forall it, k (hide it) it = k it it) -> programmed (fun it => k it it).
Proof. intros H E. exists (See (fun x => code (H x))). intros it. simpl. rewrite code_ok. auto. Qed.
Lemma pg_head {A} (f : iter -> nat) (m : M A) : programmed m -> (forall it, f (hide it) = f it) -> programmed (fun it => m (set_head (f it) it)).
Proof. intros [p H] E. exists (See (fun x => Head (f x) p)). intros it. simpl. rewrite H, E. auto. Qed.
Lemma pg_incHead : programmed incHead.
Proof. apply (pg_head (fun it => S (it_head it)) (fun it => (Ok tt, it))); auto using pg_pure. Qed.
Lemma pg_peekHead : programmed peekHead.
Proof.
  apply (pg_see (fun x it => match nth_error (it_buffer x) (it_head x) with Some c => (Ok c, it) | None => (Panic, it) end)); auto.
  intros x. destruct (nth_error _ _); apply pg_pure.
Qed.
Lemma pg_if {A} (b : iter -> bool) (m m' : M A) : programmed m -> programmed m' -> (forall it, b (hide it) = b it) -> programmed (fun it => if b it then m it else m' it).
Proof.
  intros P P' E. apply (pg_see (fun x it => if b x then m it else m' it)).
  - intros x. now destruct (b x).
  - intros it. now rewrite E.
Qed.
(** a loop bounded by the input that is left *)
Lemma pg_left {A} (f : nat -> M A) : (forall n, programmed (f n)) -> programmed (fun it => f (S (left_total it)) it).
Proof. intros H. apply (pg_see (fun x => f (S (left_total x)))); auto. Qed.
Lemma pg_pool {A} (f : stack -> M A) : (forall s, programmed (f s)) -> programmed (fun it => f (it_pool it) it).
Proof. intros H. apply (pg_see (fun x => f (it_pool x))); auto. Qed.
Lemma pg_nextByte : programmed nextByte.
Proof. apply (pg_if (fun it => (it_head it =? it_tail it)%nat)); auto using pg_bind, pg_more, pg_peekHead. Qed.

(** the scanning loops *)
Definition sok {S A} (x : sres S A) : Type :=
  match x with SStop _ m => programmed m | SResume m => programmed m | _ => unit end.
Definition iok {S A} (x : ires S A) : Type := match x with IExit _ x => sok x | _ => unit end.
Lemma scan_in_ok {S A} (body : iter -> nat -> S -> Z -> sres S A) it : (forall i s c, sok (body it i s c)) -> forall n i s, iok (scan_in body it n i s).
Proof.
  intros H. induction n as [|n IH]; intros i s; simpl; [exact tt|]. destruct (nth_error _ _) as [c|]; [|exact tt].
  specialize (H i s c). destruct (body it i s c); auto; apply H.
Qed.
Lemma scan_in_hide {S A} (body : iter -> nat -> S -> Z -> sres S A) it : (forall i s c, body (hide it) i s c = body it i s c) ->
  forall n i s, scan_in body (hide it) n i s = scan_in body it n i s.
Proof.
  intros H. induction n as [|n IH]; intros i s; simpl; auto. destruct (nth_error _ _) as [c|]; auto. rewrite H. destruct (body it i s c); auto.
Qed.
Lemma pg_scan_loop {S A} (body : iter -> nat -> S -> Z -> sres S A) atEnd onErr :
  (forall it i s c, sok (body it i s c)) -> (forall it i s c, body (hide it) i s c = body it i s c) ->
  (forall it s, atEnd (hide it) s = atEnd it s) -> (forall s e, programmed (onErr s e)) ->
  forall f s, programmed (scan_loop f body atEnd onErr s).
Proof.
  intros B Bh Eh K. induction f as [|f IH]; intros s; [apply pg_pure|].
  set (k := fun (x : iter) (it : iter) =>
    match scan_in body x (it_tail x - it_head x) (it_head x) s with
      | IPanic => (Panic, it)
      | IExit i (SStop k m) => m (set_head (i + k) it)
      | IExit i (SFail e) => (Err e, it)
      | IExit i (SResume m) =>
          let '(r, it') := m (set_head (Datatypes.S i) it) in
          match r with
          | Ok s' => scan_loop f body atEnd onErr s'
          | Err e => fun it' => (Err e, it')
          | Panic => fun it' => (Panic, it')
          | OutOfFuel => fun it' => (OutOfFuel, it')
          end it'
      | IExit i (SNext _) => (Panic, it)
      | IEnd s' =>
          match atEnd x s' with
          | None => (Panic, it)
          | Some s'' =>
              let '(r, it') := readMore (set_head (it_tail x) it) in
              match r with
              | Ok _ => scan_loop f body atEnd onErr s''
              | Err e => onErr s'' e
              | Panic => fun it' => (Panic, it')
              | OutOfFuel => fun it' => (OutOfFuel, it')
              end it'
          end
    end).
  apply (pg_ext (fun it => k it it)).
  - apply pg_see.
    + intros x. unfold k. pose proof (scan_in_ok body x (B x) (it_tail x - it_head x) (it_head x) s) as I.
      destruct (scan_in _ _ _ _ _) as [s'|i [s'|n m|e|m]|]; simpl in I; try apply pg_pure.
      * destruct (atEnd x s') as [s''|]; [|apply pg_pure].
        apply (pg_then (fun it => readMore (set_head (it_tail x) it))).
        -- apply (pg_head (fun _ => it_tail x)); auto using pg_more.
        -- intros [u|e| |]; auto using pg_pure.
      * apply (pg_head (fun _ => (i + n)%nat)); auto.
      * apply (pg_then (fun it => m (set_head (Datatypes.S i) it))).
        -- apply (pg_head (fun _ => Datatypes.S i)); auto.
        -- intros [u|e| |]; auto using pg_pure.
    + intros it. unfold k. rewrite (scan_in_hide body it (Bh it)).
      change (it_tail (hide it)) with (it_tail it). change (it_head (hide it)) with (it_head it).
      destruct (scan_in _ _ _ _ _) as [s'|i [s'|n m|e|m]|]; auto. now rewrite Eh.
  - intros it. unfold k. simpl. destruct (scan_in _ _ _ _ _) as [s'|i [s'|n m|e|m]|]; auto.
    + destruct (atEnd it s'); auto. destruct (readMore _) as [[u|e| |] it']; auto.
    + destruct (m _) as [[u|e| |] it']; auto.
Qed.
Lemma pg_scan {S A} (body : iter -> nat -> S -> Z -> sres S A) atEnd onErr s :
  (forall it i s c, sok (body it i s c)) -> (forall it i s c, body (hide it) i s c = body it i s c) ->
  (forall it s, atEnd (hide it) s = atEnd it s) -> (forall s e, programmed (onErr s e)) -> programmed (scan body atEnd onErr s).
Proof. intros. apply (pg_see (fun x => scan_loop (Datatypes.S (left_total x + rd_left x)) body atEnd onErr s)); auto using pg_scan_loop. Qed.
Lemma pg_errReturn {S A} (s : S) e : programmed (@errReturn S A s e). Proof. apply pg_fail. Qed.
Lemma pg_eofReturn {S A} (f : S -> M A) s e : (forall s, programmed (f s)) -> programmed (eofReturn f s e).
Proof. intros H. unfold eofReturn. destruct (err_eqb_eof e); auto using pg_fail. Qed.

Create HintDb pg.
#[export] Hint Resolve pg_ret pg_fail pg_panic pg_fuel pg_lift pg_more pg_setTmp pg_incHead pg_peekHead pg_nextByte pg_errReturn : pg.
(** takes a function apart *)
Ltac pg1 :=
  match goal with
  | |- forall _, _ => intros
  | |- sok (match ?x with _ => _ end) => destruct x
  | |- sok (SNext _) => exact tt
  | |- sok (SFail _) => exact tt
  | |- sok (SStop _ _) => cbn [sok]
  | |- sok (SResume _) => cbn [sok]
  | |- sok (let '(_, _) := ?x in _) => destruct x
  | |- sok ?x => progress cbv beta zeta
  | |- @eq _ _ _ => solve [reflexivity | cbv beta; reflexivity]
  | |- programmed _ => solve [auto with pg]
  | |- programmed (bind _ _) => apply pg_bind
  | |- programmed (scan _ _ _ _) => apply pg_scan
  | |- programmed (eofReturn _ _ _) => apply pg_eofReturn
  | |- programmed (match ?x with _ => _ end) => destruct x
  | |- programmed ((fun _ => _) _) => cbv beta
  | |- programmed (let _ := _ in _) => cbv zeta
  end.
Ltac pg := repeat pg1.
Lemma pg_expectBytes s : programmed (expectBytes s). Proof. unfold expectBytes. pg. Qed.
Lemma pg_nextToken : programmed nextToken. Proof. unfold nextToken. pg. Qed.
#[export] Hint Resolve pg_expectBytes pg_nextToken : pg.
Lemma pg_skipExponentLoop : programmed (skipExponentLoop). Proof. unfold skipExponentLoop. pg. Qed.
#[export] Hint Resolve pg_skipExponentLoop : pg.
Lemma pg_skipExponentPart : programmed (skipExponentPart). Proof. unfold skipExponentPart. pg. Qed.
#[export] Hint Resolve pg_skipExponentPart : pg.
Lemma pg_skipFractionLoop : programmed (skipFractionLoop). Proof. unfold skipFractionLoop. pg. Qed.
#[export] Hint Resolve pg_skipFractionLoop : pg.
Lemma pg_skipFractionPart : programmed (skipFractionPart). Proof. unfold skipFractionPart. pg. Qed.
#[export] Hint Resolve pg_skipFractionPart : pg.
Lemma pg_skipIntegerLoop : programmed (skipIntegerLoop). Proof. unfold skipIntegerLoop. pg. Qed.
#[export] Hint Resolve pg_skipIntegerLoop : pg.
Lemma pg_peekOrEOF : programmed peekOrEOF.
Proof.
  set (k := do c <- peekHead; ret (Some c)). assert (K : programmed k) by (unfold k; pg).
  apply (pg_if (fun it => (it_head it =? it_tail it)%nat)
    (fun it => match readMore it with
    | (Ok _, it') => k it'
    | (Err e, it') => if err_eqb_eof e then (Ok None, it') else (Err e, it')
    | (Panic, it') => (Panic, it')
    | (OutOfFuel, it') => (OutOfFuel, it')
    end) k); auto.
  eapply pg_ext; [apply (pg_then readMore (fun r => match r with
    | Ok _ => k
    | Err x => if err_eqb_eof x then ret None else fail x
    | Panic => panic
    | OutOfFuel => outOfFuel
    end)); pg; auto|].
  intros it. cbv beta. destruct (readMore it) as [[u|e| |] it']; auto. now destruct (err_eqb_eof e).
Qed.
#[export] Hint Resolve pg_peekOrEOF : pg.
Lemma pg_skipNumber c: programmed (skipNumber c). Proof. unfold skipNumber. pg. Qed.
#[export] Hint Resolve pg_skipNumber : pg.
Lemma pg_skipU4 : programmed (skipU4). Proof. unfold skipU4. pg. Qed.
#[export] Hint Resolve pg_skipU4 : pg.
Lemma pg_skipEscapedChar : programmed (skipEscapedChar). Proof. unfold skipEscapedChar. pg. Qed.
#[export] Hint Resolve pg_skipEscapedChar : pg.
Lemma pg_skipString : programmed (skipString). Proof. unfold skipString. pg. Qed.
#[export] Hint Resolve pg_skipString : pg.
Lemma pg_skipObjectField : programmed (skipObjectField). Proof. unfold skipObjectField. pg. Qed.
#[export] Hint Resolve pg_skipObjectField : pg.
Lemma pg_takeToken : programmed (takeToken). Proof. unfold takeToken. pg. Qed.
#[export] Hint Resolve pg_takeToken : pg.
Lemma pg_skipLeaf c: programmed (skipLeaf c). Proof. unfold skipLeaf. pg. Qed.
#[export] Hint Resolve pg_skipLeaf : pg.
Lemma pg_skipWithStack_loop f : forall top s, programmed (skipWithStack_loop f top s).
Proof. induction f; intros; cbn [skipWithStack_loop]; pg. Qed.
#[export] Hint Resolve pg_skipWithStack_loop : pg.
Lemma pg_skipWithStack top s : programmed (skipWithStack top s).
Proof. apply (pg_left (fun n => skipWithStack_loop n top s)). pg. Qed.
#[export] Hint Resolve pg_skipWithStack : pg.
Lemma pg_skipArray_loop f : forall c, programmed (skipArray_loop f c).
Proof.
  induction f; intros; cbn [skipArray_loop]; pg; [apply (pg_pool (fun q => skipWithStack stackElementObjectBegin (initArray q)))|
    apply (pg_pool (fun q => skipWithStack stackElementArrayBegin (initArray q)))]; pg.
Qed.
#[export] Hint Resolve pg_skipArray_loop : pg.
Lemma pg_skipArrayWithStack : programmed skipArrayWithStack.
Proof. unfold skipArrayWithStack; pg. apply (pg_left (fun n => skipArray_loop n a)); pg. Qed.
#[export] Hint Resolve pg_skipArrayWithStack : pg.
Lemma pg_skipObject_loop f : forall c, programmed (skipObject_loop f c).
Proof.
  induction f; intros; cbn [skipObject_loop]; pg; [apply (pg_pool (fun q => skipWithStack stackElementObjectBegin (initObject q)))|
    apply (pg_pool (fun q => skipWithStack stackElementArrayBegin (initObject q)))]; pg.
Qed.
#[export] Hint Resolve pg_skipObject_loop : pg.
Lemma pg_skipObjectWithStack : programmed skipObjectWithStack.
Proof. unfold skipObjectWithStack; pg. apply (pg_left (fun n => skipObject_loop n a)); pg. Qed.
#[export] Hint Resolve pg_skipObjectWithStack : pg.
Lemma pg_skipFunctions c: programmed (skipFunctions c). Proof. unfold skipFunctions. pg. Qed.
#[export] Hint Resolve pg_skipFunctions : pg.
Lemma pg_Skip : programmed (Skip). Proof. unfold Skip. pg. Qed.
#[export] Hint Resolve pg_Skip : pg.
Lemma pg_SkipArray : programmed (SkipArray). Proof. unfold SkipArray. pg. Qed.
#[export] Hint Resolve pg_SkipArray : pg.
Lemma pg_SkipObject : programmed (SkipObject). Proof. unfold SkipObject. pg. Qed.
#[export] Hint Resolve pg_SkipObject : pg.
Lemma pg_SkipNumber : programmed (SkipNumber). Proof. unfold SkipNumber. pg. Qed.
#[export] Hint Resolve pg_SkipNumber : pg.
Lemma pg_SkipString : programmed (SkipString). Proof. unfold SkipString. pg. Qed.
#[export] Hint Resolve pg_SkipString : pg.
Lemma pg_sliceOf (f : iter -> option bytes) : (forall it, f (hide it) = f it) -> programmed (fun it => match f it with Some b => (Ok b, it) | None => (Panic, it) end).
Proof. intros E. apply (pg_see (fun x it => match f x with Some b => (Ok b, it) | None => (Panic, it) end)); [|intros; now rewrite E]. intros x. destruct (f x); apply pg_pure. Qed.
Lemma pg_sliceFrom a : programmed (sliceFrom a).
Proof. apply (pg_sliceOf (fun it => Base.slice (it_buffer it) a (it_head it))). auto. Qed.
#[export] Hint Resolve pg_sliceFrom : pg.
Lemma pg_capture {A} b (m : M A) : programmed m -> programmed (fun it => m (set_capture b it)).
Proof. intros [p H]. exists (Capture b p). intros it. simpl. auto. Qed.
Lemma pg_withCapture {A} (m : M A) : programmed m -> programmed (withCapture m).
Proof.
  intros P. apply (pg_see (fun x it => let '(r, it') := m (set_capture true it) in (r, set_capture (it_capture x) it'))); auto.
  intros x. apply (pg_then (fun it => m (set_capture true it)) (fun r it' => (r, set_capture (it_capture x) it'))).
  - now apply pg_capture.
  - intros r. apply (pg_capture (it_capture x) (fun it => (r, it))). apply pg_pure.
Qed.
Lemma pg_SkipRaw : programmed SkipRaw.
Proof.
  unfold SkipRaw. pg. apply (pg_see (fun x => withCapture (incHead ;; skipFunctions a) ;; sliceFrom (it_head x))); auto. intros x.
  apply pg_bind; [apply pg_withCapture|]; pg.
Qed.
#[export] Hint Resolve pg_SkipRaw : pg.
Lemma pg_AppendRaw b: programmed (AppendRaw b). Proof. unfold AppendRaw. pg. Qed.
#[export] Hint Resolve pg_AppendRaw : pg.
Lemma pg_ReadRaw : programmed (ReadRaw). Proof. unfold ReadRaw. pg. Qed.
#[export] Hint Resolve pg_ReadRaw : pg.
Lemma pg_readNumberAsString c : programmed (readNumberAsString c).
Proof.
  apply (pg_see (fun x => withCapture (skipNumber c ;; sliceFrom (it_head x - 1)))); auto. intros x. apply pg_withCapture; pg.
Qed.
#[export] Hint Resolve pg_readNumberAsString : pg.
Lemma pg_ReadNumber : programmed (ReadNumber). Proof. unfold ReadNumber. pg. Qed.
#[export] Hint Resolve pg_ReadNumber : pg.
Lemma pg_ReadNull : programmed (ReadNull). Proof. unfold ReadNull. pg. Qed.
#[export] Hint Resolve pg_ReadNull : pg.
Lemma pg_ReadBool : programmed (ReadBool). Proof. unfold ReadBool. pg. Qed.
#[export] Hint Resolve pg_ReadBool : pg.
Lemma pg_readU4 : programmed (readU4). Proof. unfold readU4. pg. Qed.
#[export] Hint Resolve pg_readU4 : pg.
Lemma pg_readSurrogate f : forall b r, programmed (readSurrogate f b r).
Proof. induction f; intros; cbn [readSurrogate]; pg. Qed.
#[export] Hint Resolve pg_readSurrogate : pg.
Lemma pg_readEscapedChar b : programmed (readEscapedChar b).
Proof. unfold readEscapedChar. pg. apply (pg_left (fun n => readSurrogate n b a1)). pg. Qed.
#[export] Hint Resolve pg_readEscapedChar : pg.
Lemma pg_readStringAsSliceSlow b: programmed (readStringAsSliceSlow b). Proof. unfold readStringAsSliceSlow. pg. Qed.
#[export] Hint Resolve pg_readStringAsSliceSlow : pg.
Lemma pg_readStringFast n : forall i, programmed (readStringFast n i).
Proof.
  induction n as [|n IH]; intros i.
  - apply (pg_see (fun x it => match seg x (it_tail x) with
      | None => (Panic, it)
      | Some buf => (readMore ;; do b <- readStringAsSliceSlow buf; setTmp b ;; ret b) (set_head (it_tail x) it) end)); auto.
    intros x. destruct (seg x _) as [buf|]; [|apply pg_pure]. apply (pg_head (fun _ => it_tail x)); auto. pg.
  - apply (pg_see (fun x it => match nth_error (it_buffer x) i with
      | None => (Panic, it)
      | Some c =>
          if c <? cSPACE then (Err (EInvalidStringChar c), it)
          else if c =? cQUOTE then
            match seg x i with
            | None => (Panic, it)
            | Some buf => (setTmp buf ;; ret buf) (set_head (S i) it)
            end
          else if c =? cBSLASH then
            match seg x i with
            | None => (Panic, it)
            | Some buf =>
                (do b <- readEscapedChar buf;
                 do b' <- readStringAsSliceSlow b;
                 setTmp b' ;; ret b') (set_head (S i) it)
            end
          else readStringFast n (S i) it
      end)); auto.
    intros x. destruct (nth_error _ _) as [c|]; [|apply pg_pure]. destruct (c <? cSPACE); [apply pg_pure|].
    destruct (c =? cQUOTE); [|destruct (c =? cBSLASH)]; auto; (destruct (seg x i) as [buf|]; [|apply pg_pure]); apply (pg_head (fun _ => S i)); auto; pg.
Qed.
#[export] Hint Resolve pg_readStringFast : pg.
Lemma pg_readStringAsSlice : programmed readStringAsSlice.
Proof. apply (pg_see (fun x => readStringFast (it_tail x - it_head x) (it_head x))); pg. Qed.
#[export] Hint Resolve pg_readStringAsSlice : pg.
Lemma pg_expectQuote : programmed (expectQuote). Proof. unfold expectQuote. pg. Qed.
#[export] Hint Resolve pg_expectQuote : pg.
Lemma pg_ReadStringAsSlice : programmed (ReadStringAsSlice). Proof. unfold ReadStringAsSlice. pg. Qed.
#[export] Hint Resolve pg_ReadStringAsSlice : pg.
Lemma pg_ReadStringAndAppend b: programmed (ReadStringAndAppend b). Proof. unfold ReadStringAndAppend. pg. Qed.
#[export] Hint Resolve pg_ReadStringAndAppend : pg.
Lemma pg_readString : programmed (readString). Proof. unfold readString. pg. Qed.
#[export] Hint Resolve pg_readString : pg.
Lemma pg_ReadString : programmed (ReadString). Proof. unfold ReadString. pg. Qed.
#[export] Hint Resolve pg_ReadString : pg.
Lemma pg_readObjectFieldAsSlice : programmed (readObjectFieldAsSlice). Proof. unfold readObjectFieldAsSlice. pg. Qed.
#[export] Hint Resolve pg_readObjectFieldAsSlice : pg.
Lemma pg_readObjectField : programmed (readObjectField). Proof. unfold readObjectField. pg. Qed.
#[export] Hint Resolve pg_readObjectField : pg.
Lemma pg_readUintLoop w nd u: programmed (readUintLoop w nd u). Proof. unfold readUintLoop. pg. Qed.
#[export] Hint Resolve pg_readUintLoop : pg.
Lemma pg_readUintN w nd c: programmed (readUintN w nd c). Proof. unfold readUintN. pg. Qed.
#[export] Hint Resolve pg_readUintN : pg.
Lemma pg_readUint8 c: programmed (readUint8 c). Proof. unfold readUint8. pg. Qed.
#[export] Hint Resolve pg_readUint8 : pg.
Lemma pg_readIntN w f c : (forall c, programmed (f c)) -> programmed (readIntN w f c). Proof. intros. unfold readIntN. pg. Qed.
#[export] Hint Resolve pg_readIntN : pg.
Lemma pg_readIntOf s w c : programmed (readIntOf s w c).
Proof. destruct s, w; cbn [readIntOf]; unfold readInt8, readInt16, readInt32, readInt64, readUint16, readUint32, readUint64; auto with pg; apply pg_readIntN; unfold readUint16, readUint32, readUint64; auto with pg. Qed.
#[export] Hint Resolve pg_readIntOf : pg.
Section Float.
Variable F : floatOps.
Lemma pg_parseFloat b: programmed (parseFloat F b). Proof. unfold parseFloat. pg. Qed.
Hint Resolve pg_parseFloat : pg.
Lemma pg_readExponentLoop b: programmed (readExponentLoop F b). Proof. unfold readExponentLoop. pg. Qed.
Hint Resolve pg_readExponentLoop : pg.
Lemma pg_readFloatExponentPart b: programmed (readFloatExponentPart F b). Proof. unfold readFloatExponentPart. pg. Qed.
Hint Resolve pg_readFloatExponentPart : pg.
Lemma pg_readFractionLoop b: programmed (readFractionLoop F b). Proof. unfold readFractionLoop. pg. Qed.
Hint Resolve pg_readFractionLoop : pg.
Lemma pg_readFloatFractionPart b: programmed (readFloatFractionPart F b). Proof. unfold readFloatFractionPart. pg. Qed.
Hint Resolve pg_readFloatFractionPart : pg.
Lemma pg_readIntegerLoop b: programmed (readIntegerLoop F b). Proof. unfold readIntegerLoop. pg. Qed.
Hint Resolve pg_readIntegerLoop : pg.
Lemma pg_readPositiveFloat c: programmed (readPositiveFloat F c). Proof. unfold readPositiveFloat. pg. Qed.
Hint Resolve pg_readPositiveFloat : pg.
Lemma pg_readFloat c: programmed (readFloat F c). Proof. unfold readFloat. pg. Qed.
Hint Resolve pg_readFloat : pg.
Lemma pg_ReadFloat : programmed (ReadFloat F ). Proof. unfold ReadFloat. pg. Qed.
Hint Resolve pg_ReadFloat : pg.
Lemma pg_readNumberValue c : programmed (readNumberValue F c).
Proof. apply (pg_if it_useNumber); auto; pg. Qed.
Hint Resolve pg_readNumberValue : pg.
Lemma pg_readLeaf c : programmed (readLeaf F c). Proof. unfold readLeaf. pg. Qed.
Hint Resolve pg_readLeaf : pg.
Lemma pg_opt {A} (o : option A) : programmed (opt o). Proof. unfold opt. pg. Qed.
Hint Resolve pg_opt : pg.
Lemma pg_readWithStack_loop f : forall top s ns, programmed (readWithStack_loop F f top s ns).
Proof. induction f; intros; cbn [readWithStack_loop]; pg. Qed.
Hint Resolve pg_readWithStack_loop : pg.
Lemma pg_readWithStack top s ns : programmed (readWithStack F top s ns).
Proof. apply (pg_left (fun n => readWithStack_loop F n top s ns)). pg. Qed.
Hint Resolve pg_readWithStack : pg.
Lemma pg_readArray_loop f : forall c l, programmed (readArray_loop F f c l).
Proof.
  induction f; intros; cbn [readArray_loop]; pg;
    [apply (pg_pool (fun q => readWithStack F stackElementObjectBegin (initArray q) (ns_pushObject F [] (ns_initArray F l))))|
     apply (pg_pool (fun q => readWithStack F stackElementArrayBegin (initArray q) (ns_pushArray F [] (ns_initArray F l))))]; pg.
Qed.
Hint Resolve pg_readArray_loop : pg.
Lemma pg_readArrayWithStack : programmed (readArrayWithStack F).
Proof. unfold readArrayWithStack. pg. apply (pg_left (fun n => readArray_loop F n a [])). pg. Qed.
Hint Resolve pg_readArrayWithStack : pg.
Lemma pg_readObject_loop f : forall c l, programmed (readObject_loop F f c l).
Proof.
  induction f; intros; cbn [readObject_loop]; pg;
    [apply (pg_pool (fun q => readWithStack F stackElementObjectBegin (initObject q) (ns_pushObject F a0 (ns_initObject F l))))|
     apply (pg_pool (fun q => readWithStack F stackElementArrayBegin (initObject q) (ns_pushArray F a0 (ns_initObject F l))))]; pg.
Qed.
Hint Resolve pg_readObject_loop : pg.
Lemma pg_readObjectWithStack : programmed (readObjectWithStack F).
Proof. unfold readObjectWithStack. pg. apply (pg_left (fun n => readObject_loop F n a [])). pg. Qed.
Hint Resolve pg_readObjectWithStack : pg.
Lemma pg_Read : programmed (Read F).
Proof. unfold Read, readFunctions. pg. Qed.
End Float.
#[export] Hint Resolve pg_ReadFloat pg_Read : pg.

Section Val.
Variables (F32 F64 : floatOps) (C : custom) (E : env F32 F64 C) (sf : Z -> Z) (cs : bool).
Definition dprog (d : decoder F32 F64 C) : Type := forall o old, programmed (d o old).
Lemma pg_readNull (v : ModelVal.gval F32 F64 C) : programmed (readNull F32 F64 C v). Proof. unfold readNull. pg. Qed.
Hint Resolve pg_readNull : pg.
Lemma pg_boolDecoder : dprog (boolDecoder F32 F64 C). Proof. intros o old. unfold boolDecoder. pg. Qed.
Lemma pg_stringDecoder : dprog (stringDecoder F32 F64 C). Proof. intros o old. unfold stringDecoder. pg. Qed.
Lemma pg_intDecoder s w : dprog (intDecoder F32 F64 C s w). Proof. intros o old. unfold intDecoder. pg. Qed.
Lemma pg_floatDecoder F i : dprog (floatDecoder F32 F64 C F i). Proof. intros o old. unfold floatDecoder. pg. Qed.
Lemma pg_jsonNumberDecoder : dprog (jsonNumberDecoder F32 F64 C). Proof. intros o old. unfold jsonNumberDecoder. pg. Qed.
Lemma pg_jsonRawMessageDecoder : dprog (jsonRawMessageDecoder F32 F64 C). Proof. intros o old. unfold jsonRawMessageDecoder. pg. Qed.
Lemma pg_jsonUnmarshalerDecoder i : dprog (jsonUnmarshalerDecoder F32 F64 C i). Proof. intros o old. unfold jsonUnmarshalerDecoder. pg. Qed.
Lemma pg_textUnmarshalerDecoder i : dprog (textUnmarshalerDecoder F32 F64 C i). Proof. intros o old. unfold textUnmarshalerDecoder. pg. Qed.
Hint Resolve pg_boolDecoder pg_stringDecoder pg_intDecoder pg_floatDecoder pg_jsonNumberDecoder pg_jsonRawMessageDecoder
  pg_jsonUnmarshalerDecoder pg_textUnmarshalerDecoder : pg.
Lemma pg_pointerDecoder z d : dprog d -> dprog (pointerDecoder F32 F64 C z d).
Proof. intros D o old. unfold pointerDecoder. pg; apply D. Qed.
Lemma pg_arrayLoop f d : dprog d -> forall n a, programmed (arrayLoop F32 F64 C f d n a).
Proof. intros D. induction f; intros; cbn [arrayLoop]; pg; apply D. Qed.
Lemma pg_arrayDecoder z d : dprog d -> dprog (arrayDecoder F32 F64 C z d).
Proof. intros D o old. unfold arrayDecoder. pg. apply (pg_left (fun n => arrayLoop F32 F64 C n d 0 l)). intros. now apply pg_arrayLoop. Qed.
Lemma pg_sliceLoop f z d : dprog d -> forall n sh, programmed (sliceLoop F32 F64 C f z d n sh).
Proof. intros D. induction f; intros; cbn [sliceLoop]; pg; apply D. Qed.
Lemma pg_sliceBody b : programmed (sliceBody b).
Proof. apply (pg_sliceOf (fun it => Base.slice (it_buffer it) b (it_head it - 1))). auto. Qed.
Hint Resolve pg_sliceBody : pg.
Lemma pg_startCapture {A} (m : M A) : programmed m -> programmed (startCapture m).
Proof.
  intros P. eapply pg_ext; [apply (pg_see (fun x it => let '(r, it') := m (set_capture true it) in
    match r with Ok _ => fun it' => (r, set_capture (it_capture x) it') | _ => fun it' => (r, it') end it'))|]; auto.
  - intros x. apply (pg_then (fun it => m (set_capture true it)) (fun r => match r with Ok _ => fun it' => (r, set_capture (it_capture x) it') | _ => fun it' => (r, it') end)).
    + now apply pg_capture.
    + intros [a|e| |]; try apply pg_pure. apply (pg_capture (it_capture x) (fun it => (Ok a, it))). apply pg_pure.
  - intros it. unfold startCapture. destruct (m _) as [[a|e| |] it']; reflexivity.
Qed.
Lemma pg_readBase64 : programmed (readBase64 F32 F64 C).
Proof.
  unfold readBase64. pg. apply (pg_see (fun x => do buf <- startCapture (skipString ;; sliceBody (it_head x));
      match b64decode buf with
      | Some data => ret (VSlice (Some (map VInt data)))
      | None => fail CorruptInputError
      end)); auto. intros x. apply pg_bind; [apply pg_startCapture|]; pg.
Qed.
Hint Resolve pg_readBase64 : pg.
Lemma pg_sliceDecoder b z d : dprog d -> dprog (sliceDecoder F32 F64 C b z d).
Proof.
  intros D o old. unfold sliceDecoder. pg.
  apply (pg_left (fun n => sliceLoop F32 F64 C n z d 0 (unsafeMakeSlice z 0 0))). intros. now apply pg_sliceLoop.
Qed.
Lemma pg_kindKeyDecoder kd d : kindKeyDecoder F32 F64 C kd = Some d -> dprog d.
Proof. destruct kd; intros [= <-]; auto with pg. Qed.
Lemma pg_keyDecoder k d : keyDecoder F32 F64 C k = Some d -> dprog d.
Proof. destruct k as [| |kd [id|] mar]; cbn [keyDecoder]; try apply pg_kindKeyDecoder. intros [= <-]. auto with pg. Qed.
Lemma pg_mapLoop f k kd z d : dprog kd -> dprog d -> forall m, programmed (mapLoop F32 F64 C f k kd z d m).
Proof. intros K D. induction f; intros; cbn [mapLoop]; pg; try apply K; apply D. Qed.
Lemma pg_mapDecoder k kd z d : dprog kd -> dprog d -> dprog (mapDecoder F32 F64 C k kd z d).
Proof.
  intros K D o old. unfold mapDecoder. pg.
  apply (pg_left (fun n => mapLoop F32 F64 C n k kd z d _)). intros. now apply pg_mapLoop.
Qed.
Lemma pg_follow path d : (forall v, programmed (d v)) -> forall v, programmed (follow F32 F64 C E path d v).
Proof. intros D. induction path as [|[i|al] path IH]; intros v; cbn [follow]; pg; auto. Qed.
Lemma pg_getDisallow : programmed getDisallow.
Proof. apply (pg_see (fun x it => (Ok (it_disallow x), it))); auto. intros; apply pg_pure. Qed.
Hint Resolve pg_getDisallow : pg.
Lemma pg_structLoop f find fields : (forall i fi, nth_error fields i = Some fi -> dprog (df_decoder F32 F64 C fi)) ->
  forall v, programmed (structLoop F32 F64 C E f find fields v).
Proof.
  intros D. assert (Fl : forall i v, programmed (match nth_error fields i with
    | None => panic | Some fi => follow F32 F64 C E (df_path F32 F64 C fi) (df_decoder F32 F64 C fi (mkOpts false (df_quoted F32 F64 C fi))) v end)).
  { intros i v. destruct (nth_error fields i) as [fi|] eqn:N; [|apply pg_panic]. apply pg_follow. intros. eapply D; eauto. }
  induction f; intros; cbn [structLoop]; pg.
Qed.
Lemma pg_structDecoder find fields : (forall i fi, nth_error fields i = Some fi -> dprog (df_decoder F32 F64 C fi)) ->
  dprog (structDecoder F32 F64 C E find fields).
Proof.
  intros D o old. unfold structDecoder. pg. apply (pg_left (fun n => structLoop F32 F64 C E n find fields old)). intros. now apply pg_structLoop.
Qed.
Lemma pg_emptyObjectDecoder : dprog (emptyObjectDecoder F32 F64 C). Proof. intros o old. unfold emptyObjectDecoder. pg. Qed.
Hint Resolve pg_emptyObjectDecoder : pg.
Lemma pg_efaceDecoder d : (forall t, dprog (d t)) -> dprog (efaceDecoder F32 F64 C E d).
Proof. intros D o old. unfold efaceDecoder. pg; apply D. Qed.
Lemma pg_ifaceDecoder d : (forall t, dprog (d t)) -> dprog (ifaceDecoder F32 F64 C E d).
Proof. intros D o old. unfold ifaceDecoder. pg; apply D. Qed.
Lemma pg_decode f : forall t, dprog (decode F32 F64 C E sf cs f t).
Proof.
  induction f as [|f IH]; intros t; [intros o old; apply pg_fail|].
  destruct t; cbn [decode]; auto with pg; try (intros o old; apply pg_fail).
  - now apply pg_pointerDecoder.
  - now apply pg_arrayDecoder.
  - now apply pg_sliceDecoder.
  - destruct (keyDecoder F32 F64 C k) as [kd|] eqn:K; [|intros o old; apply pg_fail]. apply pg_mapDecoder; auto. eapply pg_keyDecoder; eauto.
  - destruct fields as [|fd fields]; auto with pg. apply pg_structDecoder.
    intros i fi H. rewrite nth_error_map in H. destruct (nth_error (fd :: fields) i) as [g|]; [|discriminate].
    injection H as <-. apply IH.
  - now apply pg_efaceDecoder.
  - now apply pg_ifaceDecoder.
Qed.
Lemma pg_unmarshal f t old : programmed (unmarshal F32 F64 C E sf cs f t old).
Proof.
  unfold unmarshal, ReadVal. apply pg_bind; [apply pg_decode|]. intros v.
  eapply pg_ext; [apply (pg_then nextToken (fun r => match r with
    | Ok _ => fail EDataRemained
    | Err e => if err_eqb_eof e then ret v else fail e
    | Panic => panic
    | OutOfFuel => outOfFuel end)); pg|].
  intros it. cbv beta. destruct (nextToken it) as [[u|e| |] it']; auto. now destruct (err_eqb_eof e).
Qed.
End Val.
