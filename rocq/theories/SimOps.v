(** Client programs refine pure functions; consequences for chunking, safety, offsets and reuse. *)
From Coq Require Import String ZArith List Bool Lia Arith.
From Verif Require Import Base ModelIter ModelStack ModelSkip ModelStr ModelInt ModelFloat ModelRead ModelIterate ModelOps
  Spec Sim SimLib SimSkip SimRaw SimStr SimInt SimFloat SimRead SimIterate NumFacts.
Import ListNotations.
Local Open Scope Z_scope.

Section Ops.
Variables F32 F64 : floatOps.
Variable b : bool.
Notation out := (out F32 F64).
Notation exec := (exec F32 F64).

Definition p_out {A} (g : A -> out) (p : P A) : P out := pbind p (fun a => pret (g a)).
Definition wbits (w : width) : Z := match w with W8 => 8 | W16 => 16 | W32 => 32 | W64 => 64 end.
Definition p_exec (o : op) : P out :=
  match o with
  | OSkip => p_out (fun _ => RUnit) p_Skip
  | OSkipArray => p_out (fun _ => RUnit) p_SkipArray
  | OSkipObject => p_out (fun _ => RUnit) p_SkipObject
  | OSkipNumber => p_out (fun _ => RUnit) p_SkipNumber
  | OSkipString => p_out (fun _ => RUnit) p_SkipString
  | OSkipRaw => p_out RBytes p_SkipRaw
  | OReadRaw => p_out RBytes (p_AppendRaw [])
  | OAppendRaw x => p_out RBytes (p_AppendRaw x)
  | OReadNumber => p_out RBytes p_ReadNumber
  | OReadNull => p_out (fun _ => RUnit) p_ReadNull
  | OReadBool => p_out RBool p_ReadBool
  | OReadString => p_out RBytes p_ReadString
  | OReadStringAsSlice => p_out RBytes p_ReadString
  | OReadStringAndAppend x => p_out RBytes (pbind p_ReadString (fun s => pret (x ++ s)))
  | OUint w => p_out RInt (p_ReadU (wbits w))
  | OInt w => p_out RInt (p_ReadI (wbits w))
  | OFloat32 => p_out RF32 (p_ReadFloat F32)
  | OFloat64 => p_out RF64 (p_ReadFloat F64)
  | ORead => p_out RVal (p_Read F64 b)
  | ONextValueType => p_out RType (pbind p_nextToken (fun c => pret (valueTypeMap c)))
  | OArrayBegin => p_out RBool p_ArrayBegin
  | OArrayMore => p_out RBool p_ArrayMore
  | OObjectBegin => p_out RKey p_ObjectBegin
  | OObjectMore => p_out RKey p_ObjectMore
  end.
Lemma sim_as_out {A} Pre (g : A -> out) m p : simR Pre m p eqR -> simR Pre (as_out F32 F64 g m) (p_out g p) eqR.
Proof. intros H. eapply sim_bind_eq; [exact H|]. intros; apply sim_ret_eq. Qed.
Lemma sim_exec o : simR (num b) (exec o) (p_exec o) eqR.
Proof.
  destruct o; cbn [ModelOps.exec p_exec]; apply sim_as_out.
  - apply simR_any. apply sim_Skip.
  - apply simR_any. apply sim_SkipArray.
  - apply simR_any. apply sim_SkipObject.
  - apply simR_any. apply sim_SkipNumber.
  - apply simR_any. apply sim_SkipString.
  - apply simR_any. apply sim_SkipRaw.
  - apply simR_any. apply sim_AppendRaw.
  - apply simR_any. apply sim_AppendRaw.
  - apply simR_any. apply sim_ReadNumber.
  - apply simR_any. apply sim_ReadNull.
  - apply simR_any. apply sim_ReadBool.
  - apply simR_any. apply sim_ReadString.
  - apply simR_any. apply sim_ReadStringAsSlice.
  - apply simR_any. apply sim_ReadStringAndAppend.
  - apply simR_any. destruct w; [apply sim_ReadUint8|apply sim_ReadUint16|apply sim_ReadUint32|apply sim_ReadUint64].
  - apply simR_any. destruct w; [apply sim_ReadInt8|apply sim_ReadInt16|apply sim_ReadInt32|apply sim_ReadInt64].
  - apply simR_any. apply sim_ReadFloat.
  - apply simR_any. apply sim_ReadFloat.
  - apply sim_Read.
  - apply simR_any. eapply sim_bind_eq; [apply sim_nextToken_eq|]. intros; apply sim_ret_eq.
  - apply simR_any. apply sim_ReadArrayBegin.
  - apply simR_any. apply sim_ReadArrayMore.
  - apply simR_any. apply sim_ReadObjectBegin.
  - apply simR_any. apply sim_ReadObjectMore.
Qed.

Fixpoint p_run {S} (p : prog F32 F64 S) : P S :=
  match p with
  | Done s => pret s
  | Throw e => pfail e
  | Do o k => pbind (p_exec o) (fun a => p_run (k a))
  | ForArray s cb k => pbind (p_ArrayCB (fun x => p_run (cb x)) s) (fun s' => p_run (k s'))
  | ForObject s cb k => pbind (p_ObjectCB (fun x f => p_run (cb x f)) s) (fun s' => p_run (k s'))
  end.
Lemma sim_run {S} (p : prog F32 F64 S) : simR (num b) (run p) (p_run p) eqR.
Proof.
  induction p as [s|e|o k IH|s cb IHcb k IH|s cb IHcb k IH]; cbn [run p_run].
  - apply sim_ret_eq.
  - apply sim_fail.
  - apply sim_bind_st; [apply stable_num|apply sim_exec|auto].
  - apply sim_bind_st; [apply stable_num| |auto].
    apply sim_ReadArrayCB; [apply stable_num|auto].
  - apply sim_bind_st; [apply stable_num| |auto].
    apply sim_ReadObjectCB; [apply stable_num|auto].
Qed.

(** whitespace before the token does not matter *)
Lemma nextToken_skip {A} (k : Z -> P A) f w l : ws w -> pbind p_nextToken k f (w ++ l) = pbind p_nextToken k f l.
Proof.
  intros H. induction H as [|c w Hc H IH]; auto. rewrite <- IH. unfold pbind.
  simpl app. rewrite (p_nextToken_eq f (c :: w ++ l)). apply is_space_ws in Hc. now rewrite Hc.
Qed.
Lemma p_out_skip {A} (g : A -> out) (p : P A) f w l : (p f (w ++ l) = p f l) -> p_out g p f (w ++ l) = p_out g p f l.
Proof. intros H. unfold p_out, pbind. now rewrite H. Qed.
Lemma take_skip {A} (k : Z -> P A) f w l : ws w -> pbind p_takeToken k f (w ++ l) = pbind p_takeToken k f l.
Proof.
  intros H. assert (E : p_takeToken f (w ++ l) = p_takeToken f l) by (now apply nextToken_skip).
  unfold pbind. now rewrite E.
Qed.
Lemma pbind_skip {A B} (p : P A) (k : A -> P B) f w l : p f (w ++ l) = p f l -> pbind p k f (w ++ l) = pbind p k f l.
Proof. intros H. unfold pbind. now rewrite H. Qed.
Lemma exec_skip o f w l : ws w -> p_exec o f (w ++ l) = p_exec o f l.
Proof.
  intros H. destruct o; cbn [p_exec]; apply p_out_skip;
    try (now apply nextToken_skip); try (now apply take_skip);
    try (apply pbind_skip; now apply nextToken_skip);
    try (apply pbind_skip; apply pbind_skip; now apply nextToken_skip).
Qed.
End Ops.

(** ** Consequences *)
Section Cor.
Variables F32 F64 : floatOps.

Definition same_input (a c : iter) : Prop :=
  stream a = stream c /\ fin a = fin c /\ it_useNumber a = it_useNumber c.

Lemma run_outcome {S} (p : prog F32 F64 S) it : wf it ->
  wf (snd (run p it)) /\ step_ok it (snd (run p it)) /\
  outcome it (snd (run p it)) (fst (run p it)) (p_run F32 F64 (it_useNumber it) p (fin it) (stream it)) eqR.
Proof. intros W. assert (H := sim_run F32 F64 (it_useNumber it) p it W eq_refl). destruct (run p it). exact H. Qed.

Lemma run_same {S} (p : prog F32 F64 S) a c : wf a -> wf c -> ~ dirty a -> ~ dirty c -> same_input a c ->
  fst (run p a) = fst (run p c) /\
  (forall s, fst (run p a) = Ok s -> same_input (snd (run p a)) (snd (run p c))).
Proof.
  intros Wa Wc Da Dc (Es & Ef & En).
  destruct (run_outcome p a Wa) as (_ & (u & Ma) & [Ha|[? _]]); [|tauto].
  destruct (run_outcome p c Wc) as (_ & (v & Mc) & [Hc|[? _]]); [|tauto].
  rewrite Es, Ef, En in Ha. unfold eqR in *.
  destruct (p_run F32 F64 (it_useNumber c) p (fin c) (stream c)) as [s rest|e].
  - destruct Ha as (x & -> & Sa & ->). destruct Hc as (y & -> & Sc & ->).
    split; auto. intros s' _. split; [congruence|]. split.
    + now rewrite (mv_fin _ _ _ Ma), (mv_fin _ _ _ Mc).
    + now rewrite (mv_num _ _ _ Ma), (mv_num _ _ _ Mc).
  - split; congruence.
Qed.

Lemma wf_new u d p : wf (newIter u d p).
Proof. constructor; simpl; auto; try discriminate; lia. Qed.
Lemma wf_reset it : wf it -> wf (reset it).
Proof. intros []. constructor; simpl; auto; discriminate. Qed.
Lemma wf_Reset r it : wf it -> wf (Reset r it).
Proof. intros []. constructor; simpl; auto; try lia; discriminate. Qed.
Lemma wf_ResetBytes l it : wf it -> wf (ResetBytes l it).
Proof. intros []. constructor; simpl; auto; try lia; discriminate. Qed.
Lemma wf_reuse u d p it : wf it -> wf (reuse u d p it).
Proof. intros []. constructor; simpl; auto. Qed.
Lemma reachable_wf it : reachable F32 F64 it -> wf it.
Proof.
  induction 1.
  - apply wf_new.
  - now apply wf_reset.
  - now apply wf_Reset.
  - now apply wf_ResetBytes.
  - now apply wf_reuse, wf_reset.
  - now apply run_outcome.
Qed.

Lemma stream_Reset r it : stream (Reset r it) = rd_data r.
Proof. unfold stream, window, rdata. simpl. reflexivity. Qed.
Lemma stream_ResetBytes l it : stream (ResetBytes l it) = l.
Proof. unfold stream, window, rdata. simpl. now rewrite Nat.sub_0_r, firstn_all, app_nil_r. Qed.
Lemma clean_ResetBytes l it : ~ dirty (ResetBytes l it).
Proof. intros (r & H & _). discriminate. Qed.
Lemma clean_Reset r it : ~ rd_dirty r -> ~ dirty (Reset r it).
Proof. intros H (r' & [= <-] & D). auto. Qed.

Lemma run_safe {S} (p : prog F32 F64 S) it : wf it ->
  fst (run p it) <> Panic /\ fst (run p it) <> OutOfFuel.
Proof.
  intros W. destruct (run_outcome p it W) as (_ & _ & [H|[_ ->]]); [|split; discriminate].
  destruct (p_run F32 F64 (it_useNumber it) p (fin it) (stream it)) as [s rest|e].
  - destruct H as (x & -> & _). split; discriminate.
  - rewrite H. split; discriminate.
Qed.

Lemma run_offset {S} (p : prog F32 F64 S) it : wf it -> InputOffset it = 0%nat ->
  stream (snd (run p it)) = skipn (InputOffset (snd (run p it))) (stream it) /\
  (InputOffset (snd (run p it)) <= length (stream it))%nat.
Proof.
  intros W O. destruct (run_outcome p it W) as (_ & (u & M) & _).
  rewrite (mv_offset _ _ _ M), O, (mv_stream _ _ _ M), Nat.add_0_l, skipn_app, Nat.sub_diag, skipn_all.
  rewrite app_length. split; auto. lia.
Qed.
End Cor.
