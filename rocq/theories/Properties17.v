(** Property C50 (decoding always ends, and finds values of the right types only).  Each theorem is followed by an example that meets its
    hypotheses. *)
From Coq Require Import String ZArith List Bool Lia Arith.
From Verif Require Import Spec SpecStream SpecFold FloatFacts FoldFacts IterFacts Sim SimLib SimOps SimVal Properties1 Properties2.
From Verif Require Import ModelIter ModelStack ModelRead Properties3.
From Verif Require Import Base ModelInt ModelFloat ModelOps ModelFold ModelVal ModelDecoder SpecVal ValFacts Properties4 Properties5.
From Verif Require Import SpecTyped TypedFacts Properties14 SpecProgress NeverFacts ProgressFacts.
Import ListNotations.
Local Open Scope Z_scope.

(** an error of the code, of a reader or of a method of a user-defined type: neither exhausted nesting fuel (the code would still be
    running) nor a value that is not of the type that is decoded (the code would misread memory) *)
Definition genuine (e : err) : Prop := e <> errDepth /\ e <> errType.
Lemma genuine_marked e : genuine e <-> marked e = false.
Proof.
  unfold genuine, errDepth, errType. destruct e as [| | | | | | | | | | | |z]; simpl; try (split; [reflexivity|split; discriminate]).
  destruct (Z.eqb_spec z (-3)) as [->|H3]; [split; [tauto|discriminate]|]. destruct (Z.eqb_spec z (-4)) as [->|H4]; [split; [tauto|discriminate]|].
  split; [reflexivity|split; congruence].
Qed.

Section Ends.
Variables F32 F64 : floatOps.
Variable C : custom.
Notation gval := (gval F32 F64 C).
Variable E : env F32 F64 C.
Variable sf : Z -> Z.                    (* unicode.SimpleFold *)
Variable cs : bool.                      (* CaseSensitive *)
Notation lookup := (findField sf cs).
Notation vreachable := (vreachable F32 F64 C E sf cs).
Notation decodes b d := (decodes F32 F64 C E lookup b d).
Notation ReadVal := (ReadVal F32 F64 C E sf cs).
Notation Unmarshal := (Unmarshal F32 F64 C E sf cs).
Notation UnmarshalFromReader := (UnmarshalFromReader F32 F64 C E sf cs).
Notation sound := (sound F32 F64 C E).
Notation typed := (typed F32 F64 C E).
Hypothesis sane32 : float_sane F32.
Hypothesis sane64 : float_sane F64.
(** the named types of a Go program: none of them is a pointer to itself *)
Hypothesis SE : sound_env F32 F64 C E.
Hypothesis Z0 : forall n, te_zero _ _ _ E n = zero F32 F64 C E (te_type _ _ _ E n).
Hypothesis G0 : forall n, grounded F32 F64 C E (te_type _ _ _ E n).
(** the errors of the methods of user-defined types are errors *)
Hypothesis UJ : forall id x t e, cu_json C id x t = inr e -> genuine e.
Hypothesis UT : forall id x t e, cu_text C id x t = inr e -> genuine e.

Lemma settled b d T v : sound T -> typed T v -> forall f l, genuine f -> is_bytes l ->
  exists n r, (forall m, (n <= m)%nat -> p_decode F32 F64 C E b d sf cs m T noOpts v f l = r) /\ match r with PErr e => genuine e | POk _ _ => True end.
Proof using All.
  intros ST Ty f l Gf B.
  destruct (progress F32 F64 C E b d sf cs sane32 sane64 SE Z0 G0 (fun id x t e H => proj1 (genuine_marked e) (UJ id x t e H))
    (fun id x t e H => proj1 (genuine_marked e) (UT id x t e H)) T v ST Ty noOpts l B f (proj1 (genuine_marked f) Gf)) as (n & r & H & K).
  exists n, r. split; auto. destruct r; auto. now apply genuine_marked.
Qed.
(** ReadVal returns a value of the type or an error, on every iterator, whatever its reader does *)
Theorem C50_readval T old it : sound T -> typed T old -> vreachable it -> is_bytes (stream it) -> genuine (fin it) ->
  exists n, forall m, (n <= m)%nat -> match fst (ReadVal m T old it) with Ok v => typed T v | Err e => genuine e | _ => False end.
Proof using All.
  intros ST Ty R B Gf. assert (W := vreachable_wf F32 F64 C E sf cs it R).
  destruct (settled (it_useNumber it) (it_disallow it) T old ST Ty (fin it) (stream it) Gf B) as (n & r & H & K). exists n. intros m Hm.
  assert (S := sim_ReadVal F32 F64 C E sf cs m T old it W). destruct (ReadVal m T old it) as [x it1] eqn:Ex. destruct S as (_ & _ & S). rewrite (H m Hm) in S.
  simpl. destruct S as [S|[_ ->]]; [|exact Gf]. destruct r as [v l|e]; [|now subst x]. destruct S as (a & -> & Es & Ea). unfold eqR in Ea. subst a.
  apply (C47_readval F32 F64 C E sf cs sane32 sane64 SE m T old it v l ST Ty R B). unfold yields. now rewrite Ex.
Qed.
Lemma unmarshal_settles T old it : sound T -> typed T old -> wf it -> is_bytes (stream it) -> genuine (fin it) ->
  exists n r, (forall m, (n <= m)%nat -> fst (unmarshal F32 F64 C E sf cs m T old it) = r \/ (dirty it /\ fst (unmarshal F32 F64 C E sf cs m T old it) = Err (fin it))) /\
    match r with Ok _ => fin it = EEOF | Err e => genuine e | _ => False end.
Proof using All.
  intros ST Ty W B Gf.
  destruct (settled (it_useNumber it) (it_disallow it) T old ST Ty (fin it) (stream it) Gf B) as (n & r & H & K).
  exists n, (match r with POk v l => match p_nextToken (fin it) l with POk _ _ => Err EDataRemained | PErr e => if err_eqb_eof e then Ok v else Err e end | PErr e => Err e end).
  split.
  - intros m Hm. unfold unmarshal, bind.
    assert (S := sim_ReadVal F32 F64 C E sf cs m T old it W). destruct (ReadVal m T old it) as [x it1] eqn:Ex. destruct S as (W1 & [u M1] & S). rewrite (H m Hm) in S.
    destruct S as [S|[D ->]]; [|right; split; auto]. destruct r as [v l|e]; [|subst x; left; reflexivity]. destruct S as (a & -> & Es & Ea). unfold eqR in Ea. subst a. rewrite <- Es.
    assert (H2 := sim_nextToken it1 W1 I). destruct (nextToken it1) as [r2 it2]. rewrite (mv_fin _ _ _ M1) in H2. simpl. destruct H2 as (_ & _ & [H2|[D ->]]).
    + left. destruct (p_nextToken (fin it) (stream it1)) as [c l2|e]; [|now subst r2]. destruct H2 as (b & -> & _). reflexivity.
    + destruct (err_eqb_eof (fin it)) eqn:Ee.
      * exfalso. apply (mv_dirty _ _ _ M1) in D. destruct D as (rd & Er & D & _). unfold fin in Ee. rewrite Er in Ee. destruct (rd_fin rd); try discriminate. now apply D.
      * right. split; [exact (mv_dirty _ _ _ M1 D)|]. simpl. rewrite (mv_fin _ _ _ M1), Ee. reflexivity.
  - destruct r as [v l|e]; auto. destruct (p_nextToken (fin it) l) as [c l2|e] eqn:En; [split; discriminate|].
    assert (e = fin it) by (now apply nextToken_no_other in En). subst e. destruct (fin it) eqn:Ef; simpl; auto.
Qed.
(** Unmarshal decides which texts are decoded: with the fuel that it needs, it returns the value if the text has one and otherwise an error *)
Theorem C50_unmarshal T old data it : sound T -> typed T old -> vreachable it -> is_bytes data ->
  exists n r, (forall m, (n <= m)%nat -> fst (Unmarshal m T old data it) = r) /\
    match r with
    | Ok v => typed T v /\ exists w1 t w2, data = w1 ++ t ++ w2 /\ ws w1 /\ ws w2 /\ decodes (it_useNumber it) (it_disallow it) T noOpts old t v
    | Err e => genuine e /\ forall w1 t w2 v, data = w1 ++ t ++ w2 -> ws w1 -> ws w2 -> ~ decodes (it_useNumber it) (it_disallow it) T noOpts old t v
    | _ => False
    end.
Proof using All.
  intros ST Ty R B. assert (W := vreachable_wf F32 F64 C E sf cs it R).
  destruct (unmarshal_settles T old (ResetBytes data it) ST Ty) as (n & r & H & K);
    [now apply wf_ResetBytes|now rewrite stream_ResetBytes|split; discriminate|].
  assert (H' : forall m, (n <= m)%nat -> fst (Unmarshal m T old data it) = r).
  { intros m Hm. destruct (H m Hm) as [?|[D _]]; auto. now apply clean_ResetBytes in D. }
  exists n, r. split; [exact H'|]. destruct r as [v|e| |]; auto.
  - specialize (H' n (Nat.le_refl n)). split; [exact (C47_unmarshal F32 F64 C E sf cs sane32 sane64 SE n T old data it v ST Ty R B H')|].
    apply (C26_unmarshal F32 F64 C E sf cs sane32 sane64 T old data it v R). eauto.
  - split; auto. intros w1 t w2 v Ed H1 H2 Hd.
    destruct (proj2 (C26_unmarshal F32 F64 C E sf cs sane32 sane64 T old data it v R)) as (n1 & H3); [exists w1, t, w2; auto|].
    destruct (C26_fuel F32 F64 C E sf cs sane32 sane64 T old data it v n1 R H3) as (n2 & H4).
    specialize (H4 (Nat.max n n2) ltac:(lia)). rewrite (H' (Nat.max n n2) ltac:(lia)) in H4. discriminate.
Qed.
(** the same for UnmarshalFromReader, whatever the reader does: the text is that of the reader, which must end with io.EOF *)
Theorem C50_reader T old rd it : sound T -> typed T old -> vreachable it -> is_bytes (rd_data rd) -> genuine (rd_fin rd) ->
  exists n, forall m, (n <= m)%nat ->
    match fst (UnmarshalFromReader m T old rd it) with
    | Ok v => rd_fin rd = EEOF /\ typed T v /\
      exists w1 t w2, rd_data rd = w1 ++ t ++ w2 /\ ws w1 /\ ws w2 /\ decodes (it_useNumber it) (it_disallow it) T noOpts old t v
    | Err e => genuine e /\
      (rd_fin rd = EEOF -> forall w1 t w2 v, rd_data rd = w1 ++ t ++ w2 -> ws w1 -> ws w2 -> ~ decodes (it_useNumber it) (it_disallow it) T noOpts old t v)
    | _ => False
    end.
Proof using All.
  intros ST Ty R B Gf. assert (W := vreachable_wf F32 F64 C E sf cs it R).
  destruct (unmarshal_settles T old (Reset rd it) ST Ty) as (n & r & H & K);
    [now apply wf_Reset|now rewrite stream_Reset|exact Gf|].
  exists n. intros m Hm. assert (H0 := H m Hm). fold (UnmarshalFromReader m T old rd it) in H0.
  destruct (fst (UnmarshalFromReader m T old rd it)) as [v|e| |] eqn:Eu.
  - assert (Fin : rd_fin rd = EEOF).
    { destruct (rd_fin rd) eqn:K1; auto; exfalso; refine (C26_reader_fails F32 F64 C E sf cs m T old rd it v R _ Eu); congruence. }
    split; auto. split; [exact (C47_reader F32 F64 C E sf cs sane32 sane64 SE m T old rd it v ST Ty R B Eu)|].
    apply (C26_reader F32 F64 C E sf cs sane32 sane64 T old rd it v R Fin). eauto.
  - split.
    + destruct H0 as [<-|[_ [= ->]]]; auto.
    + intros Fin w1 t w2 v Ed H1 H2 Hd.
      destruct (proj2 (UnmarshalFromReader_spec F32 F64 C E sf cs sane32 sane64 T old rd it v W Fin)) as (n1 & H3); [exists w1, t, w2; auto|].
      assert (Cl : ~ dirty (Reset rd it)) by (apply clean_Reset; intros [K1 _]; auto).
      destruct (unmarshal_more F32 F64 C E sf cs sane32 sane64 T old (Reset rd it) v) as (n2 & H4);
        [now apply wf_Reset|exact Fin|exact Cl|eauto|].
      specialize (H4 (Nat.max m n2) ltac:(lia)). destruct (H (Nat.max m n2) ltac:(lia)) as [H5|[D _]]; [|tauto].
      destruct H0 as [H0|[D _]]; [|tauto]. rewrite H4 in H5. congruence.
  - destruct H0 as [<-|[_ H0]]; [exact K|discriminate].
  - destruct H0 as [<-|[_ H0]]; [exact K|discriminate].
Qed.
End Ends.
Lemma demo_json id x t e : cu_json demoC id x t = inr e -> genuine e.
Proof. discriminate. Qed.
Lemma demo_text id x t e : cu_text demoC id x t = inr e -> genuine e.
Proof. simpl. destruct (bytes_eqb t (bs "bad")); intros [= <-]. split; discriminate. Qed.
Lemma enc_grounded n : grounded textF textF demoC encE (te_type _ _ _ encE n).
Proof. destruct n as [|[|[|[|[|n]]]]]; cbn [te_type encE encType]; try (apply gr_other; exact I). apply gr_ptr, gr_other. exact I. Qed.
(** the theorems hold for all inputs of these types *)
Example C50_hypotheses_ex : float_sane textF /\ sound_env textF textF demoC encE /\
  (forall n, te_zero _ _ _ encE n = zero textF textF demoC encE (te_type _ _ _ encE n)) /\
  (forall n, grounded textF textF demoC encE (te_type _ _ _ encE n)) /\
  (forall id x t e, cu_json demoC id x t = inr e -> genuine e) /\ (forall id x t e, cu_text demoC id x t = inr e -> genuine e).
Proof.
  split; [apply textF_sane|]. split; [exact enc_sound|]. split; [exact enc_zeros|]. split; [exact enc_grounded|]. split; [exact demo_json|exact demo_text].
Qed.
Example C50_unmarshal_ex : tsound pageT /\ ttyped pageT page1 /\ is_bytes pageIn /\
  (exists v, fst (tUnmarshal 20 pageT page1 pageIn (newIter false false (mkStack [] 0))) = Ok v) /\
  fst (tUnmarshal 20 pageT page1 (firstn 70 pageIn) (newIter false false (mkStack [] 0))) = Err EEOF /\
  fst (tUnmarshal 4 pageT page1 pageIn (newIter false false (mkStack [] 0))) = Err errDepth.
Proof.
  split; [exact page_sound|]. split; [exact page_typed|]. split; [apply bytes_b; reflexivity|].
  split; [eexists; vm_compute; reflexivity|]. split; vm_compute; reflexivity.
Qed.
(** the reader fails, together with the last bytes of a complete value *)
Definition badEnd : reader := mkReader (bs "[1,-128]") [(3%nat, false); (5%nat, true)] (EOther 8).
Example C50_reader_ex : tsound (TSlice (TInt true W8)) /\ is_bytes (rd_data badEnd) /\ genuine (rd_fin badEnd) /\
  fst (UnmarshalFromReader textF textF demoC encE noFold true 9 (TSlice (TInt true W8)) (VSlice None) badEnd (newIter false false (mkStack [] 0))) = Err (EOther 8).
Proof. split; [repeat soundStep|]. split; [apply bytes_b; reflexivity|]. split; [split; discriminate|]. vm_compute. reflexivity. Qed.
Example C50_readval_ex : ttyped pageT page1 /\ genuine (fin (ResetBytes (pageIn ++ bs " 1") (newIter false false (mkStack [] 0)))) /\
  (exists v, fst (ReadVal textF textF demoC encE noFold true 20 pageT page1 (ResetBytes (pageIn ++ bs " 1") (newIter false false (mkStack [] 0)))) = Ok v) /\
  (exists e, fst (ReadVal textF textF demoC encE noFold true 20 pageT page1 (ResetBytes (bs "{""Item"":[]}") (newIter false false (mkStack [] 0)))) = Err e).
Proof. split; [exact page_typed|]. split; [split; discriminate|]. split; eexists; vm_compute; reflexivity. Qed.

(** type P *P is a pointer to itself.  Decoding anything but null into it makes one pointer after the other and never ends. *)
Definition selfE : env textF textF demoC := mkEnv _ _ _ (fun _ => TPtr (TRef 0)) (fun _ => VPtr None).
Lemma self_depth n f x : p_decode textF textF demoC selfE false false noFold true n (TRef 0) noOpts (VPtr None) f (49 :: x) = PErr errDepth /\
  p_decode textF textF demoC selfE false false noFold true n (TPtr (TRef 0)) noOpts (VPtr None) f (49 :: x) = PErr errDepth.
Proof.
  revert f x. induction n as [|n IH]; intros f x; [split; reflexivity|]. destruct (IH f x) as [H1 H2]. split.
  - exact H2.
  - cbn [p_decode]. unfold p_pointerDecoder, pbind. rewrite p_nextToken_eq. cbn. rewrite H1. reflexivity.
Qed.
Theorem C50_self_refuted : exists (E : env textF textF demoC) T old data it, sound_env textF textF demoC E /\ sound textF textF demoC E T /\
  typed textF textF demoC E T old /\ (forall n, te_zero _ _ _ E n = zero textF textF demoC E (te_type _ _ _ E n)) /\
  vreachable textF textF demoC E noFold true it /\ is_bytes data /\ forall n, fst (Unmarshal textF textF demoC E noFold true n T old data it) = Err errDepth.
Proof.
  exists selfE, (TRef 0), (VPtr None), (bs "1"), (newIter false false (mkStack [] 0)).
  split; [intros n; split; [apply so_ptr, so_simple; exact I|apply ty_ptr_nil]|]. split; [apply so_simple; exact I|].
  split; [apply ty_ref, ty_ptr_nil|]. split; [reflexivity|]. split; [apply vr_reachable, re_new|]. split; [apply bytes_b; reflexivity|].
  intros n. unfold Unmarshal, unmarshal, bind.
  set (it := ResetBytes (bs "1") (newIter false false (mkStack [] 0))).
  assert (W : wf it) by (apply wf_ResetBytes, (vreachable_wf textF textF demoC selfE noFold true), vr_reachable, re_new).
  assert (H := sim_ReadVal textF textF demoC selfE noFold true n (TRef 0) (VPtr None) it W).
  destruct (ReadVal textF textF demoC selfE noFold true n (TRef 0) (VPtr None) it) as [x it1]. destruct H as (_ & _ & H).
  change (stream it) with [49] in H. rewrite (proj1 (self_depth n _ _)) in H. destruct H as [->|[D _]]; [reflexivity|].
  now apply clean_ResetBytes in D.
Qed.
Print Assumptions C50_readval.
Print Assumptions C50_unmarshal.
Print Assumptions C50_reader.
Print Assumptions C50_self_refuted.
