(** C35: concurrent first use of types. *)
From Coq Require Import List Bool Arith Lia.
From Verif Require Import ModelCache SpecCache CacheFacts DecCache ModelEncCache SpecEncCache EncCache.
Import ListNotations.

(** ** Decoders *)
Section Decoders.
Variable custom : nat -> option nat.
Variable T : nat -> dtype.
Notation dstate := (state dval dobj dbuild).
Notation go := (step dval dobj dbuild dstart (dstep T) ddone d_target d_refs).
Notation run := (steps dval dobj dbuild dstart (dstep T) ddone d_target d_refs).
Notation start := (dconfig custom).
Hypothesis natives : natives_ok T.
(** whatever the schedule, the decoder given to a goroutine is the one of its type and complete, and it is published *)
Theorem C35_dec_complete s i t v : run start s -> given s i t v ->
  complete custom T (s_objs s) (s_nobjs s) t v /\ published s t = v /\ v <> None.
Proof.
  intros R G. destruct (run_given _ _ _ _ _ _ _ _ _ (dec_build_ok custom T natives) start (dec_init custom T) (fun _ => eq_refl) s i t v R G) as (u & -> & H1 & H2).
  split; [exact H1|]. split; [exact H2|discriminate].
Qed.
(** so is every published decoder, and it stays as it is: the cache keeps it, and the structs it leads to are not written *)
Theorem C35_dec_published s s' t v : run start s -> run s s' -> published s t = Some v ->
  complete custom T (s_objs s) (s_nobjs s) t (Some v) /\ published s' t = Some v /\
  forall a, leads d_target d_refs (s_objs s) v a -> s_objs s' a = s_objs s a.
Proof.
  intros R R' H. assert (OK := dec_build_ok custom T natives). assert (I0 := dec_init custom T). split.
  - exact (run_published _ _ _ _ _ _ _ _ _ OK start I0 s t v R H).
  - exact (run_stays _ _ _ _ _ _ _ _ _ OK start I0 s s' t v R R' H).
Qed.
(** a map that is published, or that a goroutine reads without the lock, is not modified *)
Theorem C35_dec_unmodified s s' m : run start s -> run s s' -> readable s m -> s_maps s' m = s_maps s m.
Proof. apply (run_maps _ _ _ _ _ _ _ _ _ (dec_build_ok custom T natives) start (dec_init custom T)). Qed.
(** two goroutines never access the same memory at the same time if one of them writes *)
Theorem C35_dec_no_race s i j acc1 acc2 s1 s2 l w1 w2 : run start s -> i <> j -> go s i acc1 s1 -> go s j acc2 s2 ->
  In (l, w1) acc1 -> In (l, w2) acc2 -> w1 = false /\ w2 = false.
Proof. apply (run_no_race _ _ _ _ _ _ _ _ _ (dec_build_ok custom T natives) start (dec_init custom T)). Qed.
(** no decoder that is called is nil *)
Theorem C35_dec_not_nil s i t v w : run start s -> s_pc s i = Use t v w -> w <> None.
Proof. apply (run_used _ _ _ _ _ _ _ _ _ (dec_build_ok custom T natives) start (dec_init custom T)). Qed.
(** a goroutine can always go on, or wait for another one that can go on *)
Theorem C35_dec_no_deadlock s i : run start s ->
  (exists acc s', go s i acc s') \/ exists t j, s_pc s i = Lock t /\ s_lock s = Some j /\ exists acc s', go s j acc s'.
Proof. apply (run_progress _ _ _ _ _ _ _ _ _ (dec_build_ok custom T natives) start (dec_init custom T)). apply dec_progress. Qed.
End Decoders.
(** a build ends, also for types that contain themselves *)
Theorem C35_dec_ends T U x t (f : nat -> bmem dval dobj * dbuild) : closed T U -> In t U -> f 0 = (x, dstart t) ->
  ~ forall n, exists acc, dstep T (fst (f n)) (snd (f n)) acc (fst (f (S n))) (snd (f (S n))).
Proof.
  intros C Ht E0 H. assert (A := dec_ends T U C x t Ht). rewrite <- E0 in A. clear E0.
  assert (G : forall y, Acc (DecCache.after T) y -> forall n, y = f n -> False).
  { intros y Hy. induction Hy as [y _ IH]. intros n ->. apply (IH (f (S n))) with (n := S n); [|reflexivity]. exact (H n). }
  exact (G _ A 0 eq_refl).
Qed.

(** ** Encoders *)
Section Encoders.
Variable custom : nat -> option nat.
Variable T : nat -> etype.
Variable ptrTo : nat -> nat.
Variables uint8 uint8Enc : nat.
Notation go := (step eval eobj ebuild estart (estep T ptrTo uint8 uint8Enc) edone e_target e_refs).
Notation run := (steps eval eobj ebuild estart (estep T ptrTo uint8 uint8Enc) edone e_target e_refs).
Notation start := (econfig custom).
Hypothesis natives : enatives_ok T.
Hypothesis pointers : pointers_ok T ptrTo.
Notation OK := (enc_build_ok custom T ptrTo uint8 uint8Enc natives pointers).
Notation I0 := (enc_init custom T ptrTo uint8 uint8Enc).
(** whatever the schedule, the encoder given to a goroutine is the one of its type and complete, and it is published *)
Theorem C35_enc_complete s i t v : run start s -> given s i t v ->
  ecomplete custom T ptrTo uint8 uint8Enc (s_objs s) (s_nobjs s) t v /\ published s t = v /\ v <> None.
Proof.
  intros R G. destruct (run_given _ _ _ _ _ _ _ _ _ OK start I0 (fun _ => eq_refl) s i t v R G) as (u & -> & H1 & H2).
  split; [exact H1|]. split; [exact H2|discriminate].
Qed.
(** so is every published encoder, and it stays as it is: the cache keeps it, and the structs it leads to are not written *)
Theorem C35_enc_published s s' t v : run start s -> run s s' -> published s t = Some v ->
  ecomplete custom T ptrTo uint8 uint8Enc (s_objs s) (s_nobjs s) t (Some v) /\ published s' t = Some v /\
  forall a, leads e_target e_refs (s_objs s) v a -> s_objs s' a = s_objs s a.
Proof.
  intros R R' H. split.
  - exact (run_published _ _ _ _ _ _ _ _ _ OK start I0 s t v R H).
  - exact (run_stays _ _ _ _ _ _ _ _ _ OK start I0 s s' t v R R' H).
Qed.
(** a map that is published, or that a goroutine reads without the lock, is not modified *)
Theorem C35_enc_unmodified s s' m : run start s -> run s s' -> readable s m -> s_maps s' m = s_maps s m.
Proof. apply (run_maps _ _ _ _ _ _ _ _ _ OK start I0). Qed.
(** two goroutines never access the same memory at the same time if one of them writes; this includes the internal cache,
    which is modified in place *)
Theorem C35_enc_no_race s i j acc1 acc2 s1 s2 l w1 w2 : run start s -> i <> j -> go s i acc1 s1 -> go s j acc2 s2 ->
  In (l, w1) acc1 -> In (l, w2) acc2 -> w1 = false /\ w2 = false.
Proof. apply (run_no_race _ _ _ _ _ _ _ _ _ OK start I0). Qed.
(** no encoder that is called is nil *)
Theorem C35_enc_not_nil s i t v w : run start s -> s_pc s i = Use t v w -> w <> None.
Proof. apply (run_used _ _ _ _ _ _ _ _ _ OK start I0). Qed.
(** a goroutine can always go on, or wait for another one that can go on *)
Theorem C35_enc_no_deadlock s i : run start s ->
  (exists acc s', go s i acc s') \/ exists t j, s_pc s i = Lock t /\ s_lock s = Some j /\ exists acc s', go s j acc s'.
Proof. apply (run_progress _ _ _ _ _ _ _ _ _ OK start I0). apply enc_progress. Qed.
End Encoders.
(** a build ends, also for types that contain themselves *)
Theorem C35_enc_ends T ptrTo uint8 uint8Enc U x t (f : nat -> bmem eval eobj * ebuild) : eclosed T ptrTo U -> In t U -> f 0 = (x, estart t) ->
  ~ forall n, exists acc, estep T ptrTo uint8 uint8Enc (fst (f n)) (snd (f n)) acc (fst (f (S n))) (snd (f (S n))).
Proof.
  intros C Ht E0 H. assert (A := enc_ends T ptrTo uint8 uint8Enc U C x t Ht). rewrite <- E0 in A. clear E0.
  assert (G : forall y, Acc (EncCache.after T ptrTo uint8 uint8Enc) y -> forall n, y = f n -> False).
  { intros y Hy. induction Hy as [y _ IH]. intros n ->. apply (IH (f (S n))) with (n := S n); [|reflexivity]. exact (H n). }
  exact (G _ A 0 eq_refl).
Qed.

(** ** Examples *)
Section Reach.
Context {V O B : Type} {bstart : nat -> B} {bstep : bmem V O -> B -> list baccess -> bmem V O -> B -> Prop} {bdone : B -> Prop} {target : V -> option nat} {refs : O -> list (option V)}.
Notation step := (step V O B bstart bstep bdone target refs).
Notation steps := (steps V O B bstart bstep bdone target refs).
Definition reach (s : state V O B) (Q : state V O B -> Prop) : Prop := exists s', steps s s' /\ Q s'.
Lemma steps_front s i acc s1 s2 : step s i acc s1 -> steps s1 s2 -> steps s s2.
Proof. intros S1 R. induction R; eapply ss_step; eauto. apply ss_refl. Qed.
Lemma reach_step s i acc s1 Q : step s i acc s1 -> reach s1 Q -> reach s Q.
Proof. intros S1 (s' & R & H). exists s'. split; auto. eapply steps_front; eauto. Qed.
Lemma reach_here (s : state V O B) (Q : state V O B -> Prop) : Q s -> reach s Q.
Proof. intros H. exists s. split; auto. apply ss_refl. Qed.
End Reach.
(** pointers to: 0 type Node struct with a pointer to Node and an int, 1 pointer to Node, 2 int *)
Definition demoD (t : nat) : dtype :=
  match t with
  | 0 => mkDT None false false (KStruct [1; 2])
  | 1 => mkDT None false false (KPtr 0)
  | 2 => mkDT None false false (KBasic 2 7)
  | _ => mkDT None false false KOther
  end.
Definition noCustom (t : nat) : option nat := None.
Lemma demoD_natives : natives_ok demoD.
Proof. intros [|[|[|t]]] na d; simpl; try discriminate. now intros [= <- <-]. Qed.
Example demoD_closed : closed demoD [0; 1; 2].
Proof. intros t [<-|[<-|[<-|[]]]] c; simpl; intuition. Qed.
Ltac eval_state := match goal with |- @reach ?V ?O ?B ?a ?b ?c ?d ?e ?s ?Q => let s' := eval cbv in s in change (@reach V O B a b c d e s' Q) end.
(** goroutine [i] asks for type [t]; goroutine [i] takes a step *)
Ltac ask i t := eapply (reach_step _ i); [apply (st_begin _ _ _ _ _ _ _ _ _ _ t); reflexivity|eval_state].
Ltac go_on i := eapply (reach_step _ i);
  [first [eapply st_load; reflexivity|eapply st_look; reflexivity|eapply st_lock; reflexivity|eapply st_load2; reflexivity|eapply st_look2; reflexivity
         |eapply st_copy; reflexivity
         |eapply st_build; [reflexivity|first [eapply ds_visit|eapply ds_end|eapply (ds_build _ _ [])|eapply es_visit|eapply es_end|eapply (es_base64 _ _ _ _ _ []); reflexivity
            |eapply (es_nobase64 _ _ _ _ _ []); reflexivity|eapply es_end64|eapply (es_ptr _ _ _ _ _ []); reflexivity|eapply (es_noptr _ _ _ _ _ []); discriminate|eapply es_endptr|eapply (es_other _ _ _ _ _ [])]]
         |eapply st_built; reflexivity
         |eapply st_store; reflexivity|eapply st_result; reflexivity|eapply st_unlock; reflexivity|eapply st_use; reflexivity]|];
  eval_state.
Notation dreach := (@reach dval dobj dbuild dstart (dstep demoD) ddone d_target d_refs).
Notation dgo := (step dval dobj dbuild dstart (dstep demoD) ddone d_target d_refs).
(** both goroutines miss the cache; the second one waits for the lock and finds its decoder when it looks again *)
Example C35_dec_complete_example : dreach (dconfig noCustom) (fun s => given s 0 0 (Some (DObj 0)) /\ given s 1 1 (Some (DObj 1)) /\
  s_objs s 0 = mkDO SSmall 0 (Some [Some (DObj 1); Some (DLeaf (LBasic 7))]) /\ s_objs s 1 = mkDO SPtr 1 (Some [Some (DObj 0)])).
Proof.
  ask 0 0. ask 1 1. do 2 go_on 1. do 17 go_on 0. do 4 go_on 1.
  apply reach_here. split; [now left|]. split; [now left|]. split; reflexivity.
Qed.
Example C35_dec_published_example : dreach (dconfig noCustom) (fun s => published s 2 = Some (DLeaf (LBasic 7)) /\ published s 0 = None /\ readable s 1 /\ s_pub s = 2 /\
  dreach s (fun s' => published s' 0 = Some (DObj 0) /\ s_pub s' = 3)).
Proof.
  ask 1 0. go_on 1. ask 0 2. do 12 go_on 0. apply reach_here. split; [reflexivity|]. split; [reflexivity|]. split; [right; exists 1, 0; reflexivity|]. split; [reflexivity|].
  do 17 go_on 1. apply reach_here. split; reflexivity.
Qed.
Example C35_dec_no_race_example : dreach (dconfig noCustom) (fun s =>
  (exists acc s1, dgo s 0 acc s1 /\ In (LMap 2, true) acc) /\ exists acc s2, dgo s 1 acc s2 /\ In (LMap 1, false) acc).
Proof.
  ask 0 0. ask 1 0. go_on 1. do 7 go_on 0. apply reach_here. split; do 2 eexists.
  - split; [eapply st_build; [reflexivity|eapply ds_visit]|]. now left.
  - split; [eapply st_look; reflexivity|]. now left.
Qed.
Example C35_dec_not_nil_example : dreach (dconfig noCustom) (fun s => s_pc s 0 = Use 0 (Some (DObj 0)) (Some (DObj 1))).
Proof.
  ask 0 0. do 18 go_on 0. eapply (reach_step _ 0); [eapply (st_call _ _ _ _ _ _ _ _ _ _ _ _ _ 0 (Some (DObj 1))); [reflexivity|reflexivity|now left]|]. apply reach_here. reflexivity.
Qed.
Example C35_dec_no_deadlock_example : dreach (dconfig noCustom) (fun s => s_pc s 1 = Lock 1 /\ s_lock s = Some 0 /\ exists t m b, s_pc s 0 = Build t m b).
Proof. ask 0 0. ask 1 1. do 2 go_on 1. do 7 go_on 0. apply reach_here. split; [reflexivity|]. split; [reflexivity|]. do 3 eexists. reflexivity. Qed.

(** 0 type Node struct with a pointer to Node, a slice of bytes and a map of Node, 2 slice of bytes, 3 uint8, 4 map of Node;
    pointer types are 10 larger *)
Definition demoT (t : nat) : etype :=
  match t with
  | 0 => mkET None false false true (EKStruct [10; 2; 4])
  | 2 => mkET None false false true (EKSlice 3)
  | 3 => mkET None false false true (EKBasic 3 8)
  | 4 => mkET None false false false (EKMap (Some 0))
  | _ => mkET None false false (t <? 10) (if t <? 10 then EKOther else EKPtr (t - 10))
  end.
Definition demoPtr (t : nat) : nat := t + 10.
Lemma demoT_natives : enatives_ok demoT.
Proof.
  intros t na d. do 5 (destruct t as [|t]; [simpl; try discriminate; now intros [= <- <-]|]). simpl demoT. cbn [et_kind]. destruct (_ <? 10); discriminate.
Qed.
Lemma demoT_pointers : pointers_ok demoT demoPtr.
Proof.
  intros t. unfold demoPtr. replace (t + 10) with (10 + t) by lia. simpl demoT. cbn [et_kind]. destruct (Nat.ltb_spec (S (S (S (S (S (S (S (S (S (S t)))))))))) 10); [lia|]. f_equal. simpl. lia.
Qed.
Example demoT_closed : eclosed demoT demoPtr [0; 10; 20; 2; 12; 3; 13; 4; 14].
Proof. intros t Ht c. simpl in Ht. repeat (destruct Ht as [<-|Ht]; [simpl; intuition|]). destruct Ht. Qed.
Notation ereach := (@reach eval eobj ebuild estart (estep demoT demoPtr 3 8) edone e_target e_refs).
Notation ego := (step eval eobj ebuild estart (estep demoT demoPtr 3 8) edone e_target e_refs).
(** the field of type slice of bytes has the base64 encoder; the map, whose values are held by interfaces as they are, has
    different encoders in a field and at the root *)
Example C35_enc_complete_example : ereach (econfig noCustom) (fun s => given s 0 10 (Some (EObj 1)) /\ given s 1 4 (Some (EDirect (EObj 3))) /\
  s_objs s 0 = mkEO EPtr 10 (Some [Some (EObj 1)]) /\ s_objs s 1 = mkEO EStruct 0 (Some [Some (EObj 0); Some (ELeaf ELBase64); Some (EObj 3)]) /\
  s_objs s 3 = mkEO EMap 4 (Some [Some (EObj 1)])).
Proof.
  ask 0 10. ask 1 4. do 2 go_on 1. do 42 go_on 0. do 4 go_on 1. apply reach_here.
  split; [right; eexists; reflexivity|]. split; [now left|]. split; [reflexivity|]. split; reflexivity.
Qed.
Example C35_enc_published_example : ereach (econfig noCustom) (fun s => published s 3 = Some (ELeaf (ELBasic 8)) /\ published s 13 = None /\ readable s 1 /\ s_pub s = 2 /\
  ereach s (fun s' => published s' 13 = Some (ELeaf (ELBasic 8)) /\ s_objs s' 0 = mkEO EPtr 13 (Some [Some (ELeaf (ELBasic 8))]) /\ s_pub s' = 3)).
Proof.
  ask 1 13. go_on 1. ask 0 3. do 14 go_on 0. apply reach_here. split; [reflexivity|]. split; [reflexivity|]. split; [right; exists 1, 13; reflexivity|]. split; [reflexivity|].
  do 17 go_on 1. apply reach_here. split; [reflexivity|]. split; reflexivity.
Qed.
(** the internal cache, map 0, is written while the other goroutine reads the published cache *)
Example C35_enc_no_race_example : ereach (econfig noCustom) (fun s =>
  (exists acc s1, ego s 0 acc s1 /\ In (LMap 0, true) acc) /\ exists acc s2, ego s 1 acc s2 /\ In (LMap 1, false) acc).
Proof.
  ask 0 10. ask 1 0. go_on 1. do 7 go_on 0. apply reach_here. split; do 2 eexists.
  - split; [eapply st_build; [reflexivity|eapply es_visit]|]. simpl. auto.
  - split; [eapply st_look; reflexivity|]. now left.
Qed.
Example C35_enc_not_nil_example : ereach (econfig noCustom) (fun s => s_pc s 0 = Use 23 (Some (EObj 1)) (Some (ELeaf (ELBasic 8)))).
Proof.
  ask 0 23. do 21 go_on 0. eapply (reach_step _ 0); [eapply (st_call _ _ _ _ _ _ _ _ _ _ _ _ _ 1 (Some (ELeaf (ELBasic 8)))); [reflexivity|reflexivity|now left]|]. apply reach_here. reflexivity.
Qed.
Example C35_enc_no_deadlock_example : ereach (econfig noCustom) (fun s => s_pc s 1 = Lock 4 /\ s_lock s = Some 0 /\ exists t m b, s_pc s 0 = Build t m b).
Proof. ask 0 10. ask 1 4. do 2 go_on 1. do 7 go_on 0. apply reach_here. split; [reflexivity|]. split; [reflexivity|]. do 3 eexists. reflexivity. Qed.

Print Assumptions C35_dec_complete.
Print Assumptions C35_dec_published.
Print Assumptions C35_dec_unmodified.
Print Assumptions C35_dec_no_race.
Print Assumptions C35_dec_not_nil.
Print Assumptions C35_dec_no_deadlock.
Print Assumptions C35_dec_ends.
Print Assumptions C35_enc_complete.
Print Assumptions C35_enc_published.
Print Assumptions C35_enc_unmodified.
Print Assumptions C35_enc_no_race.
Print Assumptions C35_enc_not_nil.
Print Assumptions C35_enc_no_deadlock.
Print Assumptions C35_enc_ends.
