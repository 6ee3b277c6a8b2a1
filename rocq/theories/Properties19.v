(** Property C52 (what a variable holds after a failed decoding).  Each theorem is followed by an example that meets its hypotheses. *)
From Coq Require Import String ZArith List Bool Lia Arith.
From Verif Require Import Spec SpecStream SpecFold FloatFacts FoldFacts IterFacts Sim SimLib SimOps SimVal Properties1 Properties2.
From Verif Require Import ModelIter ModelStack ModelRead Properties3.
From Verif Require Import Base ModelInt ModelFloat ModelOps ModelFold ModelVal ModelDecoder SpecVal ValFacts Properties4 Properties5.
From Verif Require Import SpecTyped TypedFacts Properties14 SpecProgress NeverFacts ProgressFacts Properties17.
From Verif Require Import DecComplete ModelPart SpecPart PartAgree PartText PartFacts PartUnique PartTyped.
Import ListNotations.
Local Open Scope Z_scope.

Section Left.
Variables F32 F64 : floatOps.
Variable C : custom.
Notation gval := (gval F32 F64 C).
Variable E : env F32 F64 C.
Variable R : failures C.                 (* what methods of user-defined types leave behind when they fail *)
Variable sf : Z -> Z.                    (* unicode.SimpleFold *)
Variable cs : bool.                      (* CaseSensitive *)
Notation lookup := (findField sf cs).
Notation vreachable := (vreachable F32 F64 C E sf cs).
Notation decodes b d := (decodes F32 F64 C E lookup b d).
Notation leftover b d := (leftover F32 F64 C E R lookup b d).
Notation leaves b d := (leaves F32 F64 C E R lookup b d).
Notation Unmarshal := (Unmarshal F32 F64 C E sf cs).
Notation UnmarshalFromReader := (UnmarshalFromReader F32 F64 C E sf cs).
Notation ReadVal := (ReadVal F32 F64 C E sf cs).
Notation UnmarshalIn := (UnmarshalIn F32 F64 C E R sf cs).
Notation UnmarshalFromReaderIn := (UnmarshalFromReaderIn F32 F64 C E R sf cs).
Notation ReadValIn := (ReadValIn F32 F64 C E R sf cs).
Notation sound := (sound F32 F64 C E).
Notation typed := (typed F32 F64 C E).
Hypothesis sane32 : float_sane F32.
Hypothesis sane64 : float_sane F64.

(** ** The calls do what the calls of the model without a variable do *)
Lemma readIn_agrees n T old it : ReadVal n T old it =
  match ReadValIn n T old it with
  | ((Ok _, it'), v) => (Ok v, it')
  | ((Err e, it'), _) => (Err e, it')
  | ((Panic, it'), _) => (Panic, it')
  | ((OutOfFuel, it'), _) => (OutOfFuel, it')
  end.
Proof. unfold ModelVal.ReadVal, ModelPart.ReadValIn. rewrite <- (decode_agrees F32 F64 C E R sf cs n T noOpts old it), aside_inv. now destruct (decodeIn _ _ _ _ _ _ _ _ _ _ _ _) as [[[] ?] ?]. Qed.
Lemma unmarshalIn_agrees n T old it : unmarshal F32 F64 C E sf cs n T old it =
  match unmarshalIn F32 F64 C E R sf cs n T old it with
  | ((Ok _, it'), v) => (Ok v, it')
  | ((Err e, it'), _) => (Err e, it')
  | ((Panic, it'), _) => (Panic, it')
  | ((OutOfFuel, it'), _) => (OutOfFuel, it')
  end.
Proof.
  unfold unmarshal, unmarshalIn, bind, vbind. rewrite readIn_agrees. destruct (ReadValIn n T old it) as [[[u|e| |] it1] v]; auto.
  unfold io. destruct (nextToken it1) as [[c|e| |] it2]; auto. destruct (err_eqb_eof e); auto.
Qed.
Theorem C52_agrees n T old it : 
  ReadVal n T old it = match ReadValIn n T old it with
    | ((Ok _, it'), v) => (Ok v, it') | ((Err e, it'), _) => (Err e, it') | ((Panic, it'), _) => (Panic, it') | ((OutOfFuel, it'), _) => (OutOfFuel, it') end /\
  (forall data, Unmarshal n T old data it = match UnmarshalIn n T data it old with
    | ((Ok _, it'), v) => (Ok v, it') | ((Err e, it'), _) => (Err e, it') | ((Panic, it'), _) => (Panic, it') | ((OutOfFuel, it'), _) => (OutOfFuel, it') end) /\
  (forall rd, UnmarshalFromReader n T old rd it = match UnmarshalFromReaderIn n T rd it old with
    | ((Ok _, it'), v) => (Ok v, it') | ((Err e, it'), _) => (Err e, it') | ((Panic, it'), _) => (Panic, it') | ((OutOfFuel, it'), _) => (OutOfFuel, it') end).
Proof. split; [apply readIn_agrees|]. split; intros; apply unmarshalIn_agrees. Qed.

(** ** The variable after an error *)
Lemma read_left n T old it e it' v : wf it -> ~ dirty it -> ReadValIn n T old it = ((Err e, it'), v) -> genuine e ->
  leaves (it_useNumber it) (it_disallow it) (fin it) T noOpts old (stream it) v /\
  forall r x, ~ taken F32 F64 C E lookup (it_useNumber it) (it_disallow it) (fin it) T noOpts old (stream it) r x.
Proof using sane32 sane64.
  intros W D H G. assert (S : state (it_useNumber it) (it_disallow it) (fin it) (stream it) it) by (repeat split; auto; apply W).
  split; [eapply decode_left; eauto|]. eapply elem_err; eauto.
Qed.
Theorem C52_readval n T old it e it' v : vreachable it -> ~ dirty it -> ReadValIn n T old it = ((Err e, it'), v) -> genuine e ->
  leaves (it_useNumber it) (it_disallow it) (fin it) T noOpts old (stream it) v.
Proof using sane32 sane64. intros W D H G. apply (read_left n T old it e it' v); auto. now apply (vreachable_wf F32 F64 C E sf cs). Qed.
Lemma unmarshal_left n T old it e it' v : wf it -> ~ dirty it -> unmarshalIn F32 F64 C E R sf cs n T old it = ((Err e, it'), v) -> genuine e ->
  leftover (it_useNumber it) (it_disallow it) (fin it) T old (stream it) v.
Proof using sane32 sane64.
  intros W D H G. unfold unmarshalIn in H. apply bind_case in H. destruct H as [H|(u & it1 & v1 & H & K)].
  - right. destruct (read_left n T old it e it' v W D H G). auto.
  - left. assert (Q : v = v1) by (unfold io in K; destruct (nextToken it1) as [[]]; congruence). subst v1.
    assert (S : state (it_useNumber it) (it_disallow it) (fin it) (stream it) it) by (repeat split; auto; apply W).
    destruct (elem_ok F32 F64 C E R _ _ sf cs sane32 sane64 _ n T noOpts old _ it u it1 v S H) as (r & Q & _). exists r. exact Q.
Qed.
Theorem C52_unmarshal n T old data it e it' v : vreachable it -> UnmarshalIn n T data it old = ((Err e, it'), v) -> genuine e ->
  leftover (it_useNumber it) (it_disallow it) EEOF T old data v.
Proof using sane32 sane64.
  intros W H G. apply (vreachable_wf F32 F64 C E sf cs) in W. rewrite <- (stream_ResetBytes data it).
  exact (unmarshal_left n T old (ResetBytes data it) e it' v (wf_ResetBytes data it W) (clean_ResetBytes data it) H G).
Qed.
Theorem C52_reader n T old rd it e it' v : vreachable it -> ~ dirty (Reset rd it) -> UnmarshalFromReaderIn n T rd it old = ((Err e, it'), v) -> genuine e ->
  leftover (it_useNumber it) (it_disallow it) (rd_fin rd) T old (rd_data rd) v.
Proof using sane32 sane64.
  intros W D H G. apply (vreachable_wf F32 F64 C E sf cs) in W. rewrite <- (stream_Reset rd it).
  exact (unmarshal_left n T old (Reset rd it) e it' v (wf_Reset rd it W) D H G).
Qed.

(** ** There is one such value, and it is one of the type *)
Theorem C52_unique b d f T old s v v1 : leftover b d f T old s v -> leftover b d f T old s v1 -> v1 = v.
Proof using sane32 sane64.
  intros [(r & H)|[N H]] [(r1 & H1)|[N1 H1]].
  - now apply (taken_det F32 F64 C E b d sf cs sane32 sane64 T noOpts old f s r v r1 v1 H).
  - exfalso. eapply N1; eauto.
  - exfalso. eapply N; eauto.
  - eapply (proj1 (leaves_unique F32 F64 C E R b d sf cs sane32 sane64 f)); eauto.
Qed.
Theorem C52_typed b d f T old s v : sound_env F32 F64 C E -> sound T -> is_bytes s -> typed T old -> leftover b d f T old s v -> typed T v.
Proof.
  intros SE ST B Ty [(r & H)|[_ H]].
  - eapply taken_typed; eauto.
  - eapply (proj1 (leaves_typed F32 F64 C E R lookup b d f SE)); eauto.
Qed.
(** a variable of a type that is not decoded part by part has been decoded completely or not at all *)
Theorem C52_atomic b d f T old s v : SpecPart.atomic F32 F64 C E T old -> leftover b d f T old s v ->
  v = old \/ exists r, taken F32 F64 C E lookup b d f T noOpts old s r v.
Proof using sane32 sane64.
  intros A [H|[_ H]]; auto. left. eapply (proj1 (leaves_unique F32 F64 C E R b d sf cs sane32 sane64 f)); [|exact H]. now apply l_atomic.
Qed.

(** ** Unmarshal as a whole: the variable holds the value, or what is left over *)
Section Total.
Hypothesis SE : sound_env F32 F64 C E.
Hypothesis Z0 : forall n, te_zero _ _ _ E n = zero F32 F64 C E (te_type _ _ _ E n).
Hypothesis G0 : forall n, grounded F32 F64 C E (te_type _ _ _ E n).
Hypothesis UJ : forall id x t e, cu_json C id x t = inr e -> genuine e.
Hypothesis UT : forall id x t e, cu_text C id x t = inr e -> genuine e.
Theorem C52_total T old data it : sound T -> typed T old -> vreachable it -> is_bytes data ->
  exists n v, typed T v /\ leftover (it_useNumber it) (it_disallow it) EEOF T old data v /\
    forall m, (n <= m)%nat -> snd (UnmarshalIn m T data it old) = v /\
    match fst (fst (UnmarshalIn m T data it old)) with
    | Ok _ => exists w1 t w2, data = w1 ++ t ++ w2 /\ ws w1 /\ ws w2 /\ decodes (it_useNumber it) (it_disallow it) T noOpts old t v
    | Err e => genuine e
    | _ => False
    end.
Proof using All.
  intros ST Ty W B. destruct (C50_unmarshal F32 F64 C E sf cs sane32 sane64 SE Z0 G0 UJ UT T old data it ST Ty W B) as (n & r & H & K).
  assert (A := fun m => proj1 (proj2 (C52_agrees m T old it)) data).
  assert (L : forall m x, (n <= m)%nat -> snd (UnmarshalIn m T data it old) = x -> leftover (it_useNumber it) (it_disallow it) EEOF T old data x).
  { intros m x Hm Hx. specialize (H m Hm). specialize (A m). destruct (UnmarshalIn m T data it old) as [[q it'] v] eqn:Eu. cbn [snd] in Hx. subst x. rewrite A in H.
    destruct q as [u|e| |]; cbn [fst] in H; subst r; try contradiction.
    - left. apply (vreachable_wf F32 F64 C E sf cs) in W.
      unfold ModelPart.UnmarshalIn, unmarshalIn in Eu. apply ok_bind in Eu. destruct Eu as (u1 & it1 & v1 & Eu & K1).
      assert (Q : v = v1) by (unfold io in K1; destruct (nextToken it1) as [[]]; try congruence; destruct (err_eqb_eof _); congruence). subst v1.
      assert (S : state (it_useNumber it) (it_disallow it) EEOF data (ResetBytes data it)).
      { split; [now apply wf_ResetBytes|]. split; [apply clean_ResetBytes|]. split; [apply stream_ResetBytes|]. repeat split. }
      destruct (elem_ok F32 F64 C E R _ _ sf cs sane32 sane64 _ m T noOpts old _ _ u1 it1 v S Eu) as (r & Q & _). exists r. exact Q.
    - eapply C52_unmarshal; eauto. apply K. }
  exists n, (snd (UnmarshalIn n T data it old)). assert (L0 := L n _ (le_n n) eq_refl). split; [eapply C52_typed; eauto|]. split; [exact L0|].
  intros m Hm. assert (Q : snd (UnmarshalIn m T data it old) = snd (UnmarshalIn n T data it old)) by (eapply C52_unique; [exact L0|eapply L; eauto]).
  split; auto. specialize (H m Hm). rewrite A in H. destruct (UnmarshalIn m T data it old) as [[q it'] v] eqn:Eu. cbn [fst snd] in *. subst v.
  destruct q as [u|e| |]; cbn [fst] in H; subst r; try contradiction; apply K.
Qed.
End Total.
End Left.

(** type box struct { A [3]int8 `json:"a"`; M map[string]int8 `json:"m"`; T text `json:"t"`; *extra; I interface{} `json:"i"` } where text has an
    UnmarshalText method that fails for "bad" and empties its receiver then *)
Definition boxT : ty := TStruct [TArray 3 (TInt true W8); TMap KString (TInt true W8); TText 0; TPtr extraT; TEface]
  [mkField (bs "a") [HField 0] false false (TArray 3 (TInt true W8)); mkField (bs "m") [HField 1] false false (TMap KString (TInt true W8));
   mkField (bs "t") [HField 2] false false (TText 0); mkField (bs "x") [HField 3; HPtr (Some extraT); HField 0] false false (TInt true W64);
   mkField (bs "i") [HField 4] false false TEface].
Definition box0 : gval textF textF demoC := VStruct [VArr [VInt 7; VInt 8; VInt 9]; VMap (Some [(KS (bs "k"), VInt 5)]); VObj (C := demoC) (bs "old"); VPtr None;
  VIface (Some (TPtr (TArray 2 (TInt true W8)), VPtr (Some (VArr [VInt 3; VInt 4]))))].
Definition partR : failures demoC := mkFailures demoC (fun _ x t => x ++ t) (fun _ _ _ => []).
Notation bUnmarshal n T data old := (UnmarshalIn textF textF demoC encE partR noFold true n T (bs data) (newIter false false (mkStack [] 0)) old).
Definition box (a m : list _) t p i : gval textF textF demoC := VStruct [VArr a; VMap (Some m); VObj (C := demoC) (bs t); p;
  VIface (Some (TPtr (TArray 2 (TInt true W8)), VPtr (Some (VArr i))))].
(** the variable after errors at different places of the text: in an element of an array, after an entry of a map, in a value of a map, in a
    method, in a field of an embedded struct that was nil, in a variable behind an interface, in a name, after the value *)
Example C52_agrees_ex : exists e it', bUnmarshal 9 boxT "{""a"":[1,2,300]}" box0 = ((Err e, it'), box [VInt 1; VInt 2; VInt 9] [(KS (bs "k"), VInt 5)] "old" (VPtr None) [VInt 3; VInt 4]).
Proof. eexists. eexists. vm_compute. reflexivity. Qed.
Example C52_unmarshal_ex :
  (exists e it', genuine e /\ bUnmarshal 9 boxT "{""m"":{""j"":1,""k"":2" box0 =
     ((Err e, it'), box [VInt 7; VInt 8; VInt 9] [(KS (bs "k"), VInt 2); (KS (bs "j"), VInt 1)] "old" (VPtr None) [VInt 3; VInt 4])) /\
  (exists e it', genuine e /\ bUnmarshal 9 boxT "{""m"":{""j"":1,""k"":x" box0 =
     ((Err e, it'), box [VInt 7; VInt 8; VInt 9] [(KS (bs "k"), VInt 5); (KS (bs "j"), VInt 1)] "old" (VPtr None) [VInt 3; VInt 4])) /\
  (exists e it', genuine e /\ bUnmarshal 9 boxT "{""t"":""bad"",""a"":[1]}" box0 =
     ((Err e, it'), box [VInt 7; VInt 8; VInt 9] [(KS (bs "k"), VInt 5)] "" (VPtr None) [VInt 3; VInt 4])) /\
  (exists e it', genuine e /\ bUnmarshal 9 boxT "{""x"":true}" box0 =
     ((Err e, it'), box [VInt 7; VInt 8; VInt 9] [(KS (bs "k"), VInt 5)] "old" (VPtr (Some (VStruct [VInt 0]))) [VInt 3; VInt 4])) /\
  (exists e it', genuine e /\ bUnmarshal 9 boxT "{""i"":[1,{}],""a"":[1]}" box0 =
     ((Err e, it'), box [VInt 7; VInt 8; VInt 9] [(KS (bs "k"), VInt 5)] "old" (VPtr None) [VInt 1; VInt 4])) /\
  (exists e it', genuine e /\ bUnmarshal 9 boxT "{""u"":[{}],""t"":""new"",a" box0 =
     ((Err e, it'), box [VInt 7; VInt 8; VInt 9] [(KS (bs "k"), VInt 5)] "new" (VPtr None) [VInt 3; VInt 4])) /\
  (exists it', bUnmarshal 9 boxT "{""a"":[1]} ?" box0 =
     ((Err EDataRemained, it'), box [VInt 1; VInt 0; VInt 0] [(KS (bs "k"), VInt 5)] "old" (VPtr None) [VInt 3; VInt 4])).
Proof. repeat split; try (eexists; eexists; split; [|vm_compute; reflexivity]; split; discriminate). eexists. vm_compute. reflexivity. Qed.
(** the reader fails in the middle of the text *)
Example C52_reader_ex : exists it', ~ dirty (Reset (mkReader (bs "[1,2") [(3%nat, false); (1%nat, false)] (EOther 8)) (newIter false false (mkStack [] 0))) /\
  UnmarshalFromReaderIn textF textF demoC encE partR noFold true 9 (TArray 3 (TInt true W8)) (mkReader (bs "[1,2") [(3%nat, false); (1%nat, false)] (EOther 8))
    (newIter false false (mkStack [] 0)) (VArr [VInt 7; VInt 8; VInt 9]) = ((Err (EOther 8), it'), VArr [VInt 1; VInt 8; VInt 9]).
Proof.
  eexists. split; [|vm_compute; reflexivity]. apply clean_Reset. intros (_ & K). repeat (inversion K as [? ? Q|? ? Q]; clear K; subst; [discriminate Q|rename Q into K]). inversion K.
Qed.
Example C52_readval_ex : exists e it', ~ dirty (ResetBytes (bs "[1,2,x]") (newIter false false (mkStack [] 0))) /\ genuine e /\
  ReadValIn textF textF demoC encE partR noFold true 9 (TPtr (TArray 3 (TInt true W8))) (VPtr (Some (VArr [VInt 7; VInt 8; VInt 9])))
    (ResetBytes (bs "[1,2,x]") (newIter false false (mkStack [] 0))) = ((Err e, it'), VPtr (Some (VArr [VInt 1; VInt 2; VInt 9]))).
Proof. eexists. eexists. split; [apply clean_ResetBytes|]. split; [|vm_compute; reflexivity]. split; discriminate. Qed.
Definition bleft (T : ty) (old : gval textF textF demoC) (s : bytes) := leftover textF textF demoC encE partR (findField noFold true) false false EEOF T old s.
Lemma left_here n T data old e it' v : bUnmarshal n T data old = ((Err e, it'), v) -> genuine e -> bleft T old (bs data) v.
Proof.
  intros H G. refine (C52_unmarshal textF textF demoC encE partR noFold true textF_sane textF_sane n T old (bs data) _ e it' v _ H G).
  apply vr_reachable, re_new.
Qed.
Example C52_unique_ex : bleft boxT box0 (bs "{""a"":[1,2,300]}") (box [VInt 1; VInt 2; VInt 9] [(KS (bs "k"), VInt 5)] "old" (VPtr None) [VInt 3; VInt 4]).
Proof. eapply (left_here 9); [vm_compute; reflexivity|split; discriminate]. Qed.
Lemma extra_sound : tsound extraT.
Proof.
  apply so_struct.
  - intros T H. simpl in H. repeat destruct H as [<-|H]; try contradiction; repeat soundStep.
  - intros fd H. simpl in H. repeat destruct H as [<-|H]; try contradiction; own.
Qed.
Lemma box_sound : tsound boxT.
Proof.
  apply so_struct.
  - intros T H. simpl in H. repeat destruct H as [<-|H]; try contradiction; repeat soundStep. exact extra_sound.
  - intros fd H. simpl in H. repeat destruct H as [<-|H]; try contradiction; try own. split; [apply bytes_b; reflexivity|].
    eapply ro_field; [reflexivity|reflexivity|]. eapply ro_ptr; [reflexivity|auto|]. eapply ro_field; [reflexivity|reflexivity|apply ro_here].
Qed.
Example C52_typed_ex : tsound boxT /\ ttyped boxT box0 /\ is_bytes (bs "{""a"":[1,2,300]}") /\ sound_env textF textF demoC encE.
Proof.
  split; [exact box_sound|]. split; [|split; [apply bytes_b; reflexivity|exact enc_sound]].
  unfold box0, boxT. apply ty_struct. constructor; [apply (ty_array _ _ _ _ _ [VInt 7; VInt 8; VInt 9]); repeat typedStep|].
  constructor; [repeat typedStep; apply bytes_b; reflexivity|]. constructor; [apply ty_text|]. constructor; [apply ty_ptr_nil|]. constructor; [|constructor].
  apply ty_iface; [auto|repeat soundStep|]. apply ty_ptr. apply (ty_array _ _ _ _ _ [VInt 3; VInt 4]). repeat typedStep.
Qed.
Example C52_atomic_ex : SpecPart.atomic textF textF demoC encE (TSlice (TInt true W8)) (VSlice (Some [VInt 5])) /\
  bleft (TSlice (TInt true W8)) (VSlice (Some [VInt 5])) (bs "[1,2,") (VSlice (Some [VInt 5])) /\
  bleft (TSlice (TInt true W8)) (VSlice (Some [VInt 5])) (bs "[1,2],") (VSlice (Some [VInt 1; VInt 2])).
Proof. split; [exact I|]. split; eapply (left_here 9); [vm_compute; reflexivity|split; discriminate|vm_compute; reflexivity|split; discriminate]. Qed.
Example C52_total_ex : exists n v, v <> box0 /\ forall m, (n <= m)%nat -> snd (bUnmarshal m boxT "{""a"":[1,2,300]}" box0) = v.
Proof.
  destruct (C52_total textF textF demoC encE partR noFold true textF_sane textF_sane enc_sound enc_zeros enc_grounded demo_json demo_text
    boxT box0 (bs "{""a"":[1,2,300]}") (newIter false false (mkStack [] 0))) as (n & v & _ & L & H); try apply C52_typed_ex; [apply vr_reachable, re_new|].
  exists n, v. split; [|intros m Hm; apply (H m Hm)]. intros ->.
  assert (Q := C52_unique _ _ _ _ _ _ _ textF_sane textF_sane _ _ _ _ _ _ _ _ C52_unique_ex L). vm_compute in Q. discriminate.
Qed.
(** A variable is not restored if Unmarshal fails, not even if the text is not JSON. *)
Theorem C52_restore_refuted : exists (T : ty) (old v : gval textF textF demoC) data it e it',
  vreachable textF textF demoC encE noFold true it /\ tsound T /\ ttyped T old /\ (forall j, ~ json_text data j) /\
  UnmarshalIn textF textF demoC encE partR noFold true 9 T data it old = ((Err e, it'), v) /\ v <> old.
Proof.
  exists (TArray 2 (TInt true W8)), (VArr [VInt 7; VInt 8]), (VArr [VInt 1; VInt 8]), (bs "[1,"), (newIter false false (mkStack [] 0)).
  eexists. eexists. split; [apply vr_reachable, re_new|]. split; [repeat soundStep|]. split; [apply (ty_array _ _ _ _ _ [VInt 7; VInt 8]); repeat constructor; vm_compute; congruence|].
  split; [|split; [vm_compute; reflexivity|discriminate]]. intros j Hj.
  assert (K := proj2 (C01_valid textF textF (bs "[1,") (newIter false false (mkStack [] 0)) (re_new _ _ _ _ _)) (ex_intro _ j Hj)). vm_compute in K. discriminate.
Qed.
Print Assumptions C52_agrees.
Print Assumptions C52_readval.
Print Assumptions C52_unmarshal.
Print Assumptions C52_reader.
Print Assumptions C52_unique.
Print Assumptions C52_typed.
Print Assumptions C52_atomic.
Print Assumptions C52_total.
Print Assumptions C52_restore_refuted.
