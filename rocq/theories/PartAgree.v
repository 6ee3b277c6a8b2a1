(** Decoding in place has the results of [ModelVal.decode], and after a success the variable holds the value computed there. *)
From Coq Require Import String ZArith List Bool Lia Arith.
From Verif Require Import Base ModelIter ModelSkip ModelStr ModelInt ModelFloat ModelRead ModelIterate ModelOps ModelGrow ModelVal ModelPart.
Import ListNotations.
Local Open Scope Z_scope.

Section Agree.
Variables F32 F64 : floatOps.
Variable C : custom.
Notation gval := (gval F32 F64 C).
Notation decoder := (decoder F32 F64 C).
Notation inplace := (inplace F32 F64 C).
Variable E : env F32 F64 C.
Notation zero := (zero F32 F64 C E).
Variable R : failures C.
Variable sf : Z -> Z.
Variable cs : bool.
Notation aside := (aside F32 F64 C).

(** the result of a computation on the variable [v], with what the variable holds afterwards *)
Definition view {A} (m : V F32 F64 C A) (v : gval) : M (A * gval) := fun it =>
  match m v it with
  | ((Ok a, it'), v') => (Ok (a, v'), it')
  | ((Err e, it'), _) => (Err e, it')
  | ((Panic, it'), _) => (Panic, it')
  | ((OutOfFuel, it'), _) => (OutOfFuel, it')
  end.
Definition same {A} (m m' : M A) : Prop := forall it, m it = m' it.
Lemma same_bind {A B} (m m' : M A) (k k' : A -> M B) : same m m' -> (forall a, same (k a) (k' a)) -> same (bind m k) (bind m' k').
Proof. intros H K it. unfold bind. rewrite H. destruct (m' it) as [[a|e| |] it']; auto. apply K. Qed.
Lemma same_refl {A} (m : M A) : same m m.
Proof. intros it. reflexivity. Qed.
Lemma same_trans {A} (a b c : M A) : same a b -> same b c -> same a c.
Proof. intros H K it. now rewrite H. Qed.
Lemma same_sym {A} (a b : M A) : same a b -> same b a.
Proof. intros H it. now rewrite H. Qed.
Lemma view_bind {A B} (m : V F32 F64 C A) (k : A -> V F32 F64 C B) v :
  same (view (vbind F32 F64 C m k) v) (bind (view m v) (fun p => view (k (fst p)) (snd p))).
Proof. intros it. unfold view, vbind, bind. destruct (m v it) as [[[a|e| |] it'] v']; reflexivity. Qed.
Lemma view_io {A} (m : M A) v : same (view (io F32 F64 C m) v) (do a <- m; ret (a, v)).
Proof. intros it. unfold view, io, bind, ret. destruct (m it) as [[a|e| |] it']; reflexivity. Qed.
Lemma aside_view (d : inplace) o v : same (aside d o v) (do p <- view (d o) v; ret (snd p)).
Proof. intros it. unfold aside, view, bind, ret. destruct (d o v it) as [[[a|e| |] it'] v']; reflexivity. Qed.
Lemma aside_inv (d : inplace) o v it : aside d o v it =
  (match fst (fst (d o v it)) with Ok _ => Ok (snd (d o v it)) | Err e => Err e | Panic => Panic | OutOfFuel => OutOfFuel end, snd (fst (d o v it))).
Proof. unfold ModelPart.aside. destruct (d o v it) as [[[a|e| |] it'] v']; reflexivity. Qed.

Definition agree (d : inplace) (m : decoder) : Prop := forall o v it, aside d o v it = m o v it.
Lemma agree_last m : agree (last F32 F64 C m) m.
Proof. intros o v it. unfold ModelPart.aside, last. destruct (m o v it) as [[a|e| |] it']; reflexivity. Qed.
Lemma agree_run (d : inplace) m : agree d m -> forall o v it, m o v it =
  (match fst (fst (d o v it)) with Ok _ => Ok (snd (d o v it)) | Err e => Err e | Panic => Panic | OutOfFuel => OutOfFuel end, snd (fst (d o v it))).
Proof. intros H o v it. rewrite <- H. apply aside_inv. Qed.

(** both sides run the same actions of the iterator *)
Ltac run1 := match goal with
  | |- context [match ?m ?it with (_, _) => _ end] =>
      match m with nextToken => idtac | SkipRaw => idtac | readStringAsSlice => idtac | Skip => idtac | readObjectFieldAsSlice => idtac
        | expectBytes _ => idtac | Read _ => idtac end; destruct (m it) as [[?|?| |] ?]; cbn beta iota; try reflexivity
  | |- context [if ?b then _ else _] => destruct b; cbn beta iota; try reflexivity
  end.
Ltac prims := unfold ull, vfail, ModelPart.aside, vbind, io, load, store, vret, inside, bind, ret, fail, incHead; cbn beta iota.
Lemma agree_json id : agree (jsonUnmarshalerIn F32 F64 C R id) (jsonUnmarshalerDecoder F32 F64 C id).
Proof.
  intros o v it. unfold jsonUnmarshalerIn, jsonUnmarshalerDecoder. prims. run1. destruct v; try reflexivity.
  destruct (cu_json C id x a); reflexivity.
Qed.
Lemma agree_text id : agree (textUnmarshalerIn F32 F64 C R id) (textUnmarshalerDecoder F32 F64 C id).
Proof.
  intros o v it. unfold textUnmarshalerIn, textUnmarshalerDecoder, readNull. prims. run1. run1.
  - run1. destruct v; try reflexivity. destruct (cu_text C id x a0); reflexivity.
  - repeat run1.
Qed.
Lemma agree_pointer z d m : agree d m -> agree (pointerIn F32 F64 C z d) (pointerDecoder F32 F64 C z m).
Proof.
  intros H o v it. unfold pointerIn, pointerDecoder, readNull. prims. run1. run1.
  - repeat run1.
  - destruct v as [| | | | | | |[x|]| | | | |]; try reflexivity.
    + rewrite (agree_run d m H). destruct (d o x i) as [[[?|?| |] ?] ?]; reflexivity.
    + rewrite (agree_run d m H). destruct (d o z i) as [[[?|?| |] ?] ?]; reflexivity.
Qed.
Lemma same_arrayLoop d m : agree d m -> forall n count a, same (view (arrayLoopIn F32 F64 C n d count) (VArr a))
  (do st <- arrayLoop F32 F64 C n m count a; ret (fst st, VArr (snd st))).
Proof.
  intros H. induction n as [|n IH]; intros count a it; [reflexivity|]. cbn [arrayLoopIn arrayLoop]. unfold view. prims.
  destruct (nth_error a count) as [x|] eqn:Ex.
  - rewrite (agree_run d m H). destruct (d noOpts x it) as [[[?|?| |] i] y]; cbn [fst snd]; cbn beta iota; try reflexivity.
    run1. run1. run1. specialize (IH (S count) (upd a count y)). unfold view, same in IH. cbn beta in IH. apply IH.
  - run1. run1. run1. run1. specialize (IH count a). unfold view, same in IH. cbn beta in IH. apply IH.
Qed.
Lemma arrayLoop_length m n : forall count a it k a' it', arrayLoop F32 F64 C n m count a it = (Ok (k, a'), it') -> length a' = length a.
Proof.
  induction n as [|n IH]; intros count a it k a' it'; [discriminate|]. cbn [arrayLoop]. unfold bind, ret, fail, incHead.
  assert (U : forall (l : list gval) i x, length (upd l i x) = length l) by (induction l as [|y l L]; intros [|i] x; cbn; auto).
  destruct (nth_error a count) as [x|].
  - destruct (m noOpts x it) as [[y| | |] i]; try discriminate. destruct (nextToken i) as [[c| | |] j]; try discriminate. cbn beta iota.
    destruct (c =? 93); [intros [= _ <- _]; apply U|]. destruct (negb (c =? 44)); [discriminate|]. intros K. apply IH in K. cbn [snd] in K. now rewrite K, U.
  - destruct (Skip it) as [[y| | |] i]; try discriminate. destruct (nextToken i) as [[c| | |] j]; try discriminate. cbn beta iota.
    destruct (c =? 93); [intros [= _ <- _]; auto|]. destruct (negb (c =? 44)); [discriminate|]. intros K. now apply IH in K.
Qed.
Lemma agree_array z d m : agree d m -> agree (arrayIn F32 F64 C z d) (arrayDecoder F32 F64 C z m).
Proof.
  intros H o v it. unfold arrayIn, arrayDecoder, readNull. prims. run1. run1; try solve [run1]. run1. destruct v; try reflexivity. run1. run1.
  set (n := S (left_total i0)). assert (K := same_arrayLoop d m H n 0%nat l i0). unfold view, bind, ret in K.
  destruct (arrayLoop F32 F64 C n m 0 l i0) as [[[k a']|e| |] it'] eqn:Ea.
  - apply arrayLoop_length in Ea. destruct (arrayLoopIn F32 F64 C n d 0 (VArr l) i0) as [[[?|?| |] ?] ?]; try discriminate. injection K as -> -> ->. cbn. now rewrite Ea.
  - destruct (arrayLoopIn F32 F64 C n d 0 (VArr l) i0) as [[[?|?| |] ?] ?]; try discriminate. now injection K as -> ->.
  - destruct (arrayLoopIn F32 F64 C n d 0 (VArr l) i0) as [[[?|?| |] ?] ?]; try discriminate. now injection K as ->.
  - destruct (arrayLoopIn F32 F64 C n d 0 (VArr l) i0) as [[[?|?| |] ?] ?]; try discriminate. now injection K as ->.
Qed.
Lemma same_sliceLoop z m m' : (forall v, same (m noOpts v) (m' noOpts v)) -> forall n k sh,
  same (sliceLoop F32 F64 C n z m k sh) (sliceLoop F32 F64 C n z m' k sh).
Proof.
  intros H. induction n as [|n IH]; intros k sh; [apply same_refl|]. cbn [sliceLoop]. destruct (childGet _ k); [|apply same_refl].
  apply same_bind; [apply H|]. intros v. apply same_bind; [apply same_refl|]. intros c. apply same_bind; [apply same_refl|]. intros _.
  destruct (c =? _); [apply same_refl|]. destruct (negb _); [apply same_refl|apply IH].
Qed.
Lemma agree_slice b z d m : agree d m -> agree (last F32 F64 C (sliceDecoder F32 F64 C b z (aside d))) (sliceDecoder F32 F64 C b z m).
Proof.
  intros H o v it. rewrite agree_last. unfold sliceDecoder. apply same_bind; [apply same_refl|]. intros c.
  destruct (c =? c_n); [apply same_refl|]. destruct (c =? cQUOTE); [apply same_refl|]. destruct (negb _); [apply same_refl|].
  apply same_bind; [apply same_refl|]. intros _. apply same_bind; [apply same_refl|]. intros c2. apply same_bind; [|intros; apply same_refl].
  destruct (c2 =? _); [apply same_refl|]. intros it'. apply same_sliceLoop. intros w it2. apply H.
Qed.
Lemma same_mapLoop k kd z d m : agree d m -> forall n q, same (view (mapLoopIn F32 F64 C n k kd z d) (VMap (Some q)))
  (do q' <- mapLoop F32 F64 C n k kd z m q; ret (tt, VMap (Some q'))).
Proof.
  intros H. induction n as [|n IH]; intros q it; [reflexivity|]. cbn [mapLoopIn mapLoop]. unfold view. prims.
  destruct (kd _ _ it) as [[kv|?| |] i]; cbn [fst snd]; cbn beta iota; try reflexivity. run1. run1. fold (aside d noOpts z). rewrite (agree_run d m H). unfold ModelPart.aside.
  match goal with |- context [d noOpts z ?j] => destruct (d noOpts z j) as [[[?|?| |] ?] x]; cbn [fst snd]; cbn beta iota; try reflexivity end.
  destruct (toKey F32 F64 C k kv) as [kk|]; try reflexivity. cbn beta iota. run1. run1. run1.
  match goal with |- context [mapLoopIn _ _ _ _ _ _ _ _ (VMap (Some ?q1)) ?j] => specialize (IH q1 j) end. unfold view in IH. cbn beta in IH. apply IH.
Qed.
Lemma agree_map k kd z d m : agree d m -> agree (mapIn F32 F64 C k kd z d) (mapDecoder F32 F64 C k kd z m).
Proof.
  intros H o v it. unfold mapIn, mapDecoder, readNull. prims. run1. run1; try solve [run1]. run1. destruct v as [| | | | | | | | | |p| |]; try reflexivity.
  run1. run1; [destruct p; reflexivity|]. set (n := S (left_total i0)).
  assert (K := same_mapLoop k kd z d m H n (match p with Some q => q | None => [] end) i0). unfold view, bind, ret in K.
  match goal with |- match ?x with _ => _ end = _ => replace x with (mapLoopIn F32 F64 C n k kd z d (VMap (Some (match p with Some q => q | None => [] end))) i0) by (destruct p; reflexivity) end.
  destruct (mapLoop F32 F64 C n k kd z m _ i0) as [[q'|e| |] it'];
    destruct (mapLoopIn F32 F64 C n k kd z d _ i0) as [[[?|?| |] ?] ?]; try discriminate; injection K; intros; subst; reflexivity.
Qed.
Lemma same_follow (d : V F32 F64 C unit) (m : gval -> M gval) : (forall v, same (view d v) (do w <- m v; ret (tt, w))) ->
  forall path v, same (view (followIn F32 F64 C E path d) v) (do w <- follow F32 F64 C E path m v; ret (tt, w)).
Proof.
  intros H. induction path as [|[i|al] path IH]; intros v; [apply H| |].
  - cbn [followIn follow]. intros it. unfold view. prims. destruct v; try reflexivity. destruct (nth_error l i) as [x|]; [|reflexivity].
    specialize (IH x it). unfold view, bind, ret in IH. destruct (follow _ _ _ _ _ _ x it) as [[w|?| |] ?];
      destruct (followIn _ _ _ _ _ _ x it) as [[[?|?| |] ?] ?]; try discriminate; injection IH; intros; subst; reflexivity.
  - cbn [followIn follow]. intros it. unfold view. prims. destruct v as [| | | | | | |[x|]| | | | |]; try reflexivity.
    + specialize (IH x it). unfold view, bind, ret in IH. destruct (follow _ _ _ _ _ _ x it) as [[w|?| |] ?];
        destruct (followIn _ _ _ _ _ _ x it) as [[[?|?| |] ?] ?]; try discriminate; injection IH; intros; subst; reflexivity.
    + destruct al as [t|]; [|reflexivity]. cbn beta iota. specialize (IH (zero t) it). unfold view, bind, ret in IH. destruct (follow _ _ _ _ _ _ (zero t) it) as [[w|?| |] ?];
        destruct (followIn _ _ _ _ _ _ (zero t) it) as [[[?|?| |] ?] ?]; try discriminate; injection IH; intros; subst; reflexivity.
Qed.
Definition agreeF (a : infoIn F32 F64 C) (b : fieldInfo F32 F64 C) : Prop :=
  di_path _ _ _ a = df_path _ _ _ b /\ di_quoted _ _ _ a = df_quoted _ _ _ b /\ agree (di_decoder _ _ _ a) (df_decoder _ _ _ b).
Lemma agree_view d m : agree d m -> forall o v, same (view (d o) v) (do w <- m o v; ret (tt, w)).
Proof.
  intros H o v it. unfold view, bind, ret. rewrite (agree_run d m H). destruct (d o v it) as [[[[]|?| |] ?] ?]; reflexivity.
Qed.
Lemma same_structLoop find fs gs : Forall2 agreeF fs gs -> forall n v, same (view (structLoopIn F32 F64 C E n find fs) v)
  (do w <- structLoop F32 F64 C E n find gs v; ret (tt, w)).
Proof.
  intros H. induction n as [|n IH]; intros v it; [reflexivity|]. cbn [structLoopIn structLoop]. unfold view. prims. run1.
  destruct (find a) as [i'|].
  - assert (N : match nth_error fs i', nth_error gs i' with Some x, Some y => agreeF x y | None, None => True | _, _ => False end).
    { clear - H. revert i'. induction H as [|x y fs gs A H IH]; intros [|i]; cbn; auto. apply IH. }
    destruct (nth_error fs i') as [x|], (nth_error gs i') as [y|]; try contradiction; [|reflexivity].
    destruct N as (N1 & N2 & N3). rewrite N1, N2.
    assert (K := same_follow _ _ (fun v => agree_view _ _ N3 (mkOpts false (df_quoted _ _ _ y)) v) (df_path _ _ _ y) v i). unfold view, bind, ret in K.
    destruct (follow _ _ _ _ _ _ v i) as [[w|?| |] ?]; destruct (followIn _ _ _ _ _ _ v i) as [[[?|?| |] ?] ?]; try discriminate; injection K; intros; subst; try reflexivity.
    run1. run1. run1. run1. run1. match goal with |- context [structLoopIn _ _ _ _ _ _ _ ?w ?j] => specialize (IH w j) end. apply IH.
  - cbn beta iota. unfold getDisallow. destruct (it_disallow i); [reflexivity|]. run1. run1. run1. run1. run1. run1.
    match goal with |- context [structLoopIn _ _ _ _ _ _ _ ?w ?j] => specialize (IH w j) end. apply IH.
Qed.
Lemma agree_struct find fs gs : Forall2 agreeF fs gs -> agree (structIn F32 F64 C E find fs) (structDecoder F32 F64 C E find gs).
Proof.
  intros H o v it. unfold structIn, structDecoder, readNull. prims. run1. run1; try solve [run1]. run1. run1. run1. run1.
  match goal with |- context [structLoopIn _ _ _ _ ?n _ _ v ?j] => assert (K := same_structLoop find fs gs H n v j); unfold view, bind, ret in K;
    destruct (structLoopIn _ _ _ _ n _ _ v j) as [[[[]|?| |] ?] ?] end;
  match goal with |- _ = ?x => destruct x as [[?|?| |] ?]; try discriminate; injection K; intros; subst; reflexivity end.
Qed.
Lemma agree_eface d m : (forall t, agree (d t) (m t)) -> agree (efaceIn F32 F64 C E d) (efaceDecoder F32 F64 C E m).
Proof.
  intros H o v it. unfold efaceIn, efaceDecoder, readNull. prims. destruct v; try reflexivity. destruct (heldPtr F32 F64 C E o0) as [[t x]|].
  - run1. run1; try solve [run1]. rewrite (agree_run _ _ (H t)). destruct (d t noOpts x i) as [[[?|?| |] ?] ?]; reflexivity.
  - repeat run1.
Qed.
Lemma agree_iface d m : (forall t, agree (d t) (m t)) -> agree (ifaceIn F32 F64 C E d) (ifaceDecoder F32 F64 C E m).
Proof.
  intros H o v it. unfold ifaceIn, ifaceDecoder, readNull. prims. run1. run1; try solve [run1].
  destruct v as [| | | | | | | | | | | |[[t x]|]]; try reflexivity. destruct (under F32 F64 C E t); try reflexivity. destruct x as [| | | | | | |[x|]| | | | |]; try reflexivity.
  rewrite (agree_run _ _ (H t0)). destruct (d t0 noOpts x i) as [[[?|?| |] ?] ?]; reflexivity.
Qed.
Theorem decode_agrees n T : agree (decodeIn F32 F64 C E R sf cs n T) (decode F32 F64 C E sf cs n T).
Proof.
  revert T. induction n as [|n IH]; intros T; [intros o v it; reflexivity|]. destruct T; cbn [decodeIn decode]; try apply agree_last.
  - apply agree_json.
  - apply agree_text.
  - now apply agree_pointer.
  - now apply agree_array.
  - now apply agree_slice.
  - destruct (keyDecoder F32 F64 C k); [now apply agree_map|apply agree_last].
  - destruct fields as [|f0 fields]; [apply agree_last|]. apply agree_struct. generalize (f0 :: fields). intros l. induction l as [|x l L]; constructor; auto.
    repeat split; auto. apply IH.
  - now apply agree_eface.
  - now apply agree_iface.
  - apply IH.
Qed.
End Agree.
