(** Decoding with and without DisallowUnknownFields, step by step: the results are the same unless the first one is the
    refusal of a member. *)
From Coq Require Import String ZArith List Bool Lia Arith.
From Verif Require Import Base ModelIter ModelInt ModelFloat ModelRead ModelOps ModelVal Sim SimLib Machine SimSkip SimRead SimVal.
Import ListNotations.
Local Open Scope Z_scope.

(** a member is refused: the name of an unknown field, or a byte where an object must end *)
Definition refusal (e : err) : Prop := (exists name, e = EUnknownField name) \/ (exists c, c <> 125 /\ e = EUnexpectedByte c 125 0).
Definition agree {A} (p q : P A) : Prop := forall f l, p f l = q f l \/ exists e, p f l = PErr e /\ refusal e.

Lemma ag_refl {A} (p : P A) : agree p p.
Proof. now left. Qed.
Lemma ag_bind {A B} (p q : P A) (k k' : A -> P B) : agree p q -> (forall a, agree (k a) (k' a)) -> agree (pbind p k) (pbind q k').
Proof.
  intros H K f l. unfold pbind. destruct (H f l) as [->|(e & -> & R)]; [|right; eauto]. destruct (q f l); [apply K|now left].
Qed.
Lemma ag_same {A B} (p : P A) (k k' : A -> P B) : (forall a, agree (k a) (k' a)) -> agree (pbind p k) (pbind p k').
Proof. apply ag_bind, ag_refl. Qed.
Lemma ag_if {A} (b : bool) (p q p' q' : P A) : agree p p' -> agree q q' -> agree (if b then p else q) (if b then p' else q').
Proof. destruct b; auto. Qed.
Lemma ag_fuel {A} (p q : nat -> P A) : (forall n, agree (p n) (q n)) -> agree (p_fuel p) (p_fuel q).
Proof. intros H f l. apply H. Qed.
Ltac ag := repeat first [ apply ag_refl | apply ag_if | apply ag_same; intros ].

Section OptionStep.
Variables F32 F64 : floatOps.
Variable C : custom.
Notation gval := (gval F32 F64 C).
Variable E : env F32 F64 C.
Variable b : bool.
Variable sf : Z -> Z.
Variable cs : bool.
Notation pdecoder := (pdecoder F32 F64 C).
Definition agreeD (p q : pdecoder) : Prop := forall o v, agree (p o v) (q o v).

Lemma ag_pointer z p q : agreeD p q -> agreeD (p_pointerDecoder F32 F64 C z p) (p_pointerDecoder F32 F64 C z q).
Proof. intros H o v. unfold p_pointerDecoder. ag. destruct v; ag. apply ag_bind; [apply H|intros; ag]. Qed.
Lemma ag_arrayLoop p q : agreeD p q -> forall n count a, agree (p_arrayLoop F32 F64 C n p count a) (p_arrayLoop F32 F64 C n q count a).
Proof.
  intros H n. induction n as [|n IH]; intros; cbn [p_arrayLoop]; [ag|]. apply ag_bind.
  - destruct (nth_error a count); [apply ag_bind; [apply H|intros; ag]|ag].
  - intros st. ag. apply IH.
Qed.
Lemma ag_array z p q : agreeD p q -> agreeD (p_arrayDecoder F32 F64 C z p) (p_arrayDecoder F32 F64 C z q).
Proof.
  intros H o v. unfold p_arrayDecoder. ag. destruct v; ag. apply ag_bind; [|intros; ag]. ag. apply ag_fuel. intros. now apply ag_arrayLoop.
Qed.
Lemma ag_sliceLoop z p q : agreeD p q -> forall n acc, agree (p_sliceLoop F32 F64 C n z p acc) (p_sliceLoop F32 F64 C n z q acc).
Proof.
  intros H n. induction n as [|n IH]; intros; cbn [p_sliceLoop]; [ag|]. apply ag_bind; [apply H|]. intros v. ag. apply IH.
Qed.
Lemma ag_slice ib z p q : agreeD p q -> agreeD (p_sliceDecoder F32 F64 C ib z p) (p_sliceDecoder F32 F64 C ib z q).
Proof.
  intros H o v. unfold p_sliceDecoder. ag. apply ag_bind; [|intros; ag]. ag. apply ag_fuel. intros. now apply ag_sliceLoop.
Qed.
Lemma ag_mapLoop k kd z p q : agreeD p q -> forall n m, agree (p_mapLoop F32 F64 C n k kd z p m) (p_mapLoop F32 F64 C n k kd z q m).
Proof.
  intros H n. induction n as [|n IH]; intros; cbn [p_mapLoop]; [ag|]. ag. apply ag_bind; [apply H|]. intros v.
  destruct (toKey F32 F64 C k a); ag. apply IH.
Qed.
Lemma ag_map k kd z p q : agreeD p q -> agreeD (p_mapDecoder F32 F64 C k kd z p) (p_mapDecoder F32 F64 C k kd z q).
Proof.
  intros H o v. unfold p_mapDecoder. ag. destruct v; ag. apply ag_bind; [|intros; ag]. ag. apply ag_fuel. intros. now apply ag_mapLoop.
Qed.
Lemma ag_follow path : forall (p q : gval -> P gval) v, (forall v, agree (p v) (q v)) -> agree (p_follow F32 F64 C E path p v) (p_follow F32 F64 C E path q v).
Proof.
  induction path as [|[i|al] r IH]; intros p q v H; cbn [p_follow]; auto.
  - destruct v; ag. destruct (nth_error l i); ag. apply ag_bind; [apply IH, H|intros; ag].
  - destruct v as [| | | | | | |[x|]| | | | |]; ag; [apply ag_bind; [apply IH, H|intros; ag]|]. destruct al; ag.
    apply ag_bind; [apply IH, H|intros; ag].
Qed.
(** the decoders of the fields *)
Definition agreeF (x y : pfieldInfo F32 F64 C) : Prop :=
  pf_path _ _ _ x = pf_path _ _ _ y /\ pf_quoted _ _ _ x = pf_quoted _ _ _ y /\ agreeD (pf_decoder _ _ _ x) (pf_decoder _ _ _ y).
Lemma ag_structLoop find fs fs' : Forall2 agreeF fs fs' -> forall n v,
  agree (p_structLoop F32 F64 C E true n find fs v) (p_structLoop F32 F64 C E false n find fs' v).
Proof.
  intros H n. induction n as [|n IH]; intros; cbn [p_structLoop]; [ag|]. apply ag_same. intros name. apply ag_bind.
  - destruct (find name) as [i|].
    + clear IH. revert i. induction H as [|x y l l' (Hp & Hq & Hd) H IHl]; intros [|i]; cbn [nth_error]; ag; [|apply IHl].
      rewrite Hp, Hq. apply ag_follow. intros. apply Hd.
    + intros f l. right. eexists. split; [reflexivity|]. left. eauto.
  - intros v'. ag. apply IH.
Qed.
Lemma ag_struct find fs fs' : Forall2 agreeF fs fs' -> agreeD (p_structDecoder F32 F64 C E true find fs) (p_structDecoder F32 F64 C E false find fs').
Proof. intros H o v. unfold p_structDecoder. ag. apply ag_fuel. intros. now apply ag_structLoop. Qed.
Lemma ag_empty : agreeD (p_emptyObjectDecoder F32 F64 C true) (p_emptyObjectDecoder F32 F64 C false).
Proof.
  intros o v. unfold p_emptyObjectDecoder. apply ag_same. intros a. apply ag_same. intros a0. apply ag_if; [ag|].
  destruct (Z.eqb_spec a cLBRACE) as [->|]; [|ag].
  intros f l. unfold p_skipFunctions, p_value. cbn [Z.eqb Pos.eqb]. unfold p_object, pbind.
  destruct (p_nextToken f l) as [c r|e]; [|now left].
  destruct (Z.eqb_spec c cRBRACE) as [->|Hc]; cbn [negb].
  - left. reflexivity.
  - right. eexists. split; [reflexivity|right; eauto].
Qed.
Lemma ag_eface p q : (forall t, agreeD (p t) (q t)) -> agreeD (p_efaceDecoder F32 F64 C E b p) (p_efaceDecoder F32 F64 C E b q).
Proof.
  intros H o v. unfold p_efaceDecoder. destruct v; ag. destruct (heldPtr F32 F64 C E o0) as [[t x]|]; ag.
  apply ag_bind; [apply H|intros; ag].
Qed.
Lemma ag_iface p q : (forall t, agreeD (p t) (q t)) -> agreeD (p_ifaceDecoder F32 F64 C E p) (p_ifaceDecoder F32 F64 C E q).
Proof.
  intros H o v. unfold p_ifaceDecoder. ag. destruct v as [| | | | | | | | | | | |[[t v]|]]; ag.
  destruct (under F32 F64 C E t); ag. destruct v as [| | | | | | |[x|]| | | | |]; ag. apply ag_bind; [apply H|intros; ag].
Qed.
Lemma ag_decode n : forall t, agreeD (p_decode F32 F64 C E b true sf cs n t) (p_decode F32 F64 C E b false sf cs n t).
Proof.
  induction n as [|n IH]; intros t; [intros o v; apply ag_refl|]. cbn [p_decode]. destruct t; [intros o v; apply ag_refl..| | | | | | | | |intros o v; apply ag_refl].
  - apply ag_pointer, IH.
  - apply ag_array, IH.
  - apply ag_slice, IH.
  - destruct (p_keyDecoder F32 F64 C k); [apply ag_map, IH|intros o v; apply ag_refl].
  - destruct fields as [|f0 fs]; [apply ag_empty|]. apply ag_struct. generalize (f0 :: fs). intros l.
    induction l as [|x l IHl]; constructor; auto. split; [reflexivity|]. split; [reflexivity|apply IH].
  - apply ag_eface, IH.
  - apply ag_iface, IH.
  - apply IH.
Qed.
End OptionStep.
