(** More nesting fuel does not change a result that is not [errDepth]. *)
From Coq Require Import String ZArith List Bool Lia Arith.
From Verif Require Import Base ModelIter ModelFloat ModelOps ModelVal Spec Sim SimLib SimSkip SimRaw SimStr SimInt SimFloat SimRead SimIterate SimOps SimVal.
Import ListNotations.
Local Open Scope Z_scope.

Definition lep {A} (p q : P A) : Prop := forall f l, p f l = PErr errDepth \/ p f l = q f l.
Lemma lep_refl {A} (p : P A) : lep p p.
Proof. intros f l. now right. Qed.
Lemma lep_bind {A B} (p p' : P A) (k k' : A -> P B) : lep p p' -> (forall a, lep (k a) (k' a)) -> lep (pbind p k) (pbind p' k').
Proof.
  intros H K f l. unfold pbind. destruct (H f l) as [->| ->]; [now left|]. destruct (p' f l) as [a r|e]; [apply K|now right].
Qed.
Lemma lep_if {A} (b : bool) (p p' q q' : P A) : lep p p' -> lep q q' -> lep (if b then p else q) (if b then p' else q').
Proof. now destruct b. Qed.
Lemma lep_fuel {A} (p q : nat -> P A) : (forall n, lep (p n) (q n)) -> lep (p_fuel p) (p_fuel q).
Proof. intros H f l. apply H. Qed.

Section Mono.
Variables F32 F64 : floatOps.
Variable C : custom.
Notation gval := (gval F32 F64 C).
Variable E : env F32 F64 C.
Variables b d : bool.
Variable sf : Z -> Z.
Variable cs : bool.
Notation pd := (p_decode F32 F64 C E b d sf cs).
Notation pdecoder := (pdecoder F32 F64 C).

Definition led (p q : pdecoder) : Prop := forall o v, lep (p o v) (q o v).
Ltac lp := repeat first [apply lep_refl | apply lep_if | apply lep_bind; [|intros ?] | assumption].
Lemma le_pointer z p q : led p q -> led (p_pointerDecoder F32 F64 C z p) (p_pointerDecoder F32 F64 C z q).
Proof. intros H o v. unfold p_pointerDecoder. lp. destruct v; lp. apply H. Qed.
Lemma le_arrayLoop p q : led p q -> forall n c a, lep (p_arrayLoop F32 F64 C n p c a) (p_arrayLoop F32 F64 C n q c a).
Proof. intros H. induction n as [|n IH]; intros c a; cbn [p_arrayLoop]; lp; [destruct (nth_error a c); lp; apply H|apply IH]. Qed.
Lemma le_array z p q : led p q -> led (p_arrayDecoder F32 F64 C z p) (p_arrayDecoder F32 F64 C z q).
Proof. intros H o v. unfold p_arrayDecoder. lp. destruct v; lp. apply lep_fuel. intros n. now apply le_arrayLoop. Qed.
Lemma le_sliceLoop z p q : led p q -> forall n a, lep (p_sliceLoop F32 F64 C n z p a) (p_sliceLoop F32 F64 C n z q a).
Proof. intros H. induction n as [|n IH]; intros a; cbn [p_sliceLoop]; lp; [apply H|apply IH]. Qed.
Lemma le_slice i z p q : led p q -> led (p_sliceDecoder F32 F64 C i z p) (p_sliceDecoder F32 F64 C i z q).
Proof. intros H o v. unfold p_sliceDecoder. lp. apply lep_fuel. intros n. now apply le_sliceLoop. Qed.
Lemma le_mapLoop k kp z p q : led p q -> forall n m, lep (p_mapLoop F32 F64 C n k kp z p m) (p_mapLoop F32 F64 C n k kp z q m).
Proof. intros H. induction n as [|n IH]; intros m; cbn [p_mapLoop]; lp; [apply H|]. destruct (toKey _ _ _ k _); lp. apply IH. Qed.
Lemma le_map k kp z p q : led p q -> led (p_mapDecoder F32 F64 C k kp z p) (p_mapDecoder F32 F64 C k kp z q).
Proof. intros H o v. unfold p_mapDecoder. lp. destruct v; lp. apply lep_fuel. intros n. now apply le_mapLoop. Qed.
Lemma le_follow path : forall (p q : gval -> P gval) v, (forall v, lep (p v) (q v)) -> lep (p_follow F32 F64 C E path p v) (p_follow F32 F64 C E path q v).
Proof.
  induction path as [|[i|al] path IH]; intros p q v H; cbn [p_follow]; [apply H| |].
  - destruct v; lp. destruct (nth_error l i); lp. now apply IH.
  - destruct v as [| | | | | | |[x|]| | | | |]; lp; [now apply IH|]. destruct al; lp. now apply IH.
Qed.
Definition leF (x y : pfieldInfo F32 F64 C) : Prop :=
  pf_path _ _ _ x = pf_path _ _ _ y /\ pf_quoted _ _ _ x = pf_quoted _ _ _ y /\ led (pf_decoder _ _ _ x) (pf_decoder _ _ _ y).
Lemma le_structLoop find fs gs : Forall2 leF fs gs -> forall n v, lep (p_structLoop F32 F64 C E d n find fs v) (p_structLoop F32 F64 C E d n find gs v).
Proof.
  intros H. induction n as [|n IH]; intros v; cbn [p_structLoop]; lp; [|apply IH]. destruct (find _) as [i|]; lp.
  assert (N : match nth_error fs i, nth_error gs i with Some x, Some y => leF x y | None, None => True | _, _ => False end).
  { clear - H. revert i. induction H as [|x y fs gs A H IH]; intros [|i]; cbn; auto. apply IH. }
  destruct (nth_error fs i) as [x|], (nth_error gs i) as [y|]; try contradiction; lp. destruct N as (-> & -> & N). apply le_follow. intros w. apply N.
Qed.
Lemma le_struct find fs gs : Forall2 leF fs gs -> led (p_structDecoder F32 F64 C E d find fs) (p_structDecoder F32 F64 C E d find gs).
Proof. intros H o v. unfold p_structDecoder. lp. apply lep_fuel. intros n. now apply le_structLoop. Qed.
Lemma le_eface p q : (forall t, led (p t) (q t)) -> led (p_efaceDecoder F32 F64 C E b p) (p_efaceDecoder F32 F64 C E b q).
Proof. intros H o v. unfold p_efaceDecoder. destruct v; lp. destruct (heldPtr F32 F64 C E o0) as [[t x]|]; lp. apply H. Qed.
Lemma le_iface p q : (forall t, led (p t) (q t)) -> led (p_ifaceDecoder F32 F64 C E p) (p_ifaceDecoder F32 F64 C E q).
Proof.
  intros H o v. unfold p_ifaceDecoder. lp. destruct v as [| | | | | | | | | | | |[[t x]|]]; lp. destruct (under F32 F64 C E t); lp.
  destruct x as [| | | | | | |[x|]| | | | |]; lp. apply H.
Qed.
Lemma decode_le n : forall T, led (pd n T) (pd (S n) T).
Proof.
  induction n as [|n IH]; intros T; [intros o v f l; now left|]. destruct T; try (intros o v; apply lep_refl).
  - exact (le_pointer _ _ _ (IH T)).
  - exact (le_array _ _ _ (IH T)).
  - exact (le_slice _ _ _ _ (IH T)).
  - cbn [p_decode]. destruct (p_keyDecoder F32 F64 C k) as [kp|]; [|intros o v; apply lep_refl]. exact (le_map _ _ _ _ _ (IH T)).
  - destruct fields as [|f0 fields]; [intros o v; apply lep_refl|]. cbn [p_decode]. apply le_struct. generalize (f0 :: fields). intros l.
    induction l as [|x l L]; constructor; auto. repeat split; auto. apply IH.
  - exact (le_eface _ _ IH).
  - exact (le_iface _ _ IH).
  - exact (IH (te_type _ _ _ E n0)).
Qed.
Lemma decode_mono n m T o v f l : (n <= m)%nat -> pd n T o v f l = PErr errDepth \/ pd m T o v f l = pd n T o v f l.
Proof.
  intros H. induction H as [|m H IH]; [now right|]. destruct IH as [IH|IH]; [now left|]. destruct (decode_le m T o v f l) as [K|K].
  - left. now rewrite <- IH.
  - right. now rewrite <- K.
Qed.
Lemma follow_mono n m path T o v f l : (n <= m)%nat ->
  p_follow F32 F64 C E path (pd n T o) v f l = PErr errDepth \/ p_follow F32 F64 C E path (pd m T o) v f l = p_follow F32 F64 C E path (pd n T o) v f l.
Proof.
  intros H. destruct (le_follow path (pd n T o) (pd m T o) v) with (f := f) (l := l) as [K|K]; auto. intros w f' l'. destruct (decode_mono n m T o w f' l' H); auto.
Qed.
End Mono.
