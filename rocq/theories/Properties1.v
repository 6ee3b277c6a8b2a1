(** Properties C01-C16 and C38: the iterator.  Each theorem is followed by an example that
    meets its hypotheses. *)
From Coq Require Import String ZArith List Bool Lia Arith.
From Verif Require Import Base ModelIter ModelStack ModelSkip ModelStr ModelInt ModelFloat ModelRead ModelIterate ModelOps
  Spec SpecRead Sim SimOps StackFacts FloatFacts IterateFacts IterFacts.
Import ListNotations.
Local Open Scope Z_scope.

(** A float parser for the examples: a float is its sign and its text.  It shows that the
    hypotheses on ParseFloat can be met. *)
Definition lowerE (t : bytes) : bytes := map (fun c => if c =? 69 then 101 else c) t.
Definition textF : floatOps := mkFloatOps (bool * bytes)
  (fun t => match t with c :: u => if c =? 45 then inl (true, lowerE u) else inl (false, lowerE t) | [] => inr 1 end)
  (false, [48]) (fun x => (negb (fst x), snd x)).
Lemma textF_sane : float_sane textF.
Proof.
  constructor; auto. intros u Hu. destruct (unsigned_first _ Hu) as (d & t & -> & Hd). simpl.
  unfold is_digit in Hd. destruct (Z.eqb_spec d 45); [lia|]. reflexivity.
Qed.
(** an iterator that has been used for something else and failed, now in the middle of an
    input delivered in small pieces *)
Definition used : iter :=
  snd (run (F32 := textF) (F64 := textF) (Do OSkip (fun _ => Done tt))
         (ResetBytes (bs "[[[{") (newIter false false (mkStack [5; 7] 0)))).
Definition pieces (s : string) : reader :=
  mkReader (bs s) [(1%nat, false); (0%nat, false); (3%nat, false); (1%nat, false); (2%nat, true); (0%nat, true)] EEOF.
Definition small (s : string) : iter := Reset (pieces s) used.
Definition bytesOf (s : string) : iter := ResetBytes (bs s) used.
Lemma reachable_used : reachable textF textF used.
Proof. apply re_run, re_ResetBytes, re_new. Qed.
Lemma reachable_small s : reachable textF textF (small s).
Proof. apply re_Reset, reachable_used. Qed.
Lemma clean_small s : ~ dirty (small s).
Proof. apply clean_Reset. intros [H _]. now apply H. Qed.
Lemma wf_small s : wf (small s).
Proof. apply (reachable_wf textF textF), reachable_small. Qed.
#[local] Hint Resolve reachable_small clean_small wf_small : core.

Ltac solve_same := cbv zeta; repeat split; auto; rewrite ?stream_Reset, ?stream_ResetBytes; auto.

Lemma digits_b l : forallb (fun c => (48 <=? c) && (c <=? 57)) l = true -> digits l.
Proof.
  intros H. apply Forall_forall. intros c Hc. apply (proj1 (forallb_forall _ _) H) in Hc. unfold is_digit. lia.
Qed.

Section Iterator.
Variables F32 F64 : floatOps.
Notation reachable := (reachable F32 F64).
Let wfr := reachable_wf F32 F64.

(** ** C01 *)
Theorem C01_valid data it : reachable it -> (fst (Valid data it) = true <-> exists j, json_text data j).
Proof. intros R. apply Valid_spec. now apply wfr. Qed.

(** ** C02 *)
(** the same operations on two iterators in any states with the same remaining input *)
Theorem C02_same_input S (p : prog F32 F64 S) a c : reachable a -> reachable c -> ~ dirty a -> ~ dirty c ->
  stream a = stream c -> fin a = fin c -> it_useNumber a = it_useNumber c ->
  fst (run p a) = fst (run p c) /\
  (forall s, fst (run p a) = Ok s -> stream (snd (run p a)) = stream (snd (run p c))).
Proof.
  intros Ra Rc Da Dc E1 E2 E3. destruct (run_same F32 F64 p a c (wfr _ Ra) (wfr _ Rc) Da Dc) as [E H]; [repeat split; auto|].
  split; auto. intros s Hs. now destruct (H s Hs).
Qed.
(** two readers that deliver the same bytes in different pieces *)
Theorem C02_readers S (p : prog F32 F64 S) r1 r2 a c : reachable a -> reachable c ->
  rd_data r1 = rd_data r2 -> rd_fin r1 = rd_fin r2 -> ~ rd_dirty r1 -> ~ rd_dirty r2 -> it_useNumber a = it_useNumber c ->
  fst (run p (Reset r1 a)) = fst (run p (Reset r2 c)) /\
  (forall s, fst (run p (Reset r1 a)) = Ok s ->
     stream (snd (run p (Reset r1 a))) = stream (snd (run p (Reset r2 c))) /\
     InputOffset (snd (run p (Reset r1 a))) = InputOffset (snd (run p (Reset r2 c)))).
Proof.
  intros Ra Rc E1 E2 D1 D2 En. apply run_history; auto using wf_Reset, clean_Reset.
  solve_same.
Qed.
(** a reader and the whole input as a byte slice *)
Theorem C02_bytes S (p : prog F32 F64 S) r a c : reachable a -> reachable c ->
  rd_fin r = EEOF -> it_useNumber a = it_useNumber c ->
  fst (run p (Reset r a)) = fst (run p (ResetBytes (rd_data r) c)) /\
  (forall s, fst (run p (Reset r a)) = Ok s ->
     stream (snd (run p (Reset r a))) = stream (snd (run p (ResetBytes (rd_data r) c))) /\
     InputOffset (snd (run p (Reset r a))) = InputOffset (snd (run p (ResetBytes (rd_data r) c)))).
Proof.
  intros Ra Rc E1 En. apply run_history; auto using wf_Reset, wf_ResetBytes, clean_ResetBytes.
  - apply clean_Reset. intros [H _]. auto.
  - solve_same.
Qed.
(** Readers that return data together with an error other than EOF: the result is the one of
    the whole input, or the reader's error. *)
Theorem C02_dirty S (p : prog F32 F64 S) r1 r2 a c : reachable a -> reachable c ->
  rd_data r1 = rd_data r2 -> rd_fin r1 = rd_fin r2 -> ~ rd_dirty r2 -> it_useNumber a = it_useNumber c ->
  fst (run p (Reset r1 a)) = fst (run p (Reset r2 c)) \/ fst (run p (Reset r1 a)) = Err (rd_fin r1).
Proof.
  intros Ra Rc E1 E2 D2 En. apply (run_dirty F32 F64 p (Reset r1 a) (Reset r2 c)); auto using wf_Reset, clean_Reset.
  solve_same.
Qed.

(** ** C03 *)
(** for every reader, clean or not *)
Theorem C03_safe S (p : prog F32 F64 S) it : reachable it ->
  (exists s, fst (run p it) = Ok s) \/ (exists e, fst (run p it) = Err e).
Proof.
  intros R. destruct (run_safe F32 F64 p it (wfr _ R)) as [H1 H2]. destruct (fst (run p it)); eauto; tauto.
Qed.

(** ** C04 *)
Theorem C04_offset_reader S (p : prog F32 F64 S) r it : reachable it ->
  let it' := snd (run p (Reset r it)) in
  exists b, Buffer it' = Some b /\ b ++ rdata it' = skipn (InputOffset it') (rd_data r) /\ (InputOffset it' <= length (rd_data r))%nat.
Proof.
  intros R it'. assert (H := run_offset F32 F64 p (Reset r it) (wf_Reset r it (wfr _ R)) eq_refl).
  rewrite stream_Reset in H. exists (window it'). split; [|exact H].
  apply Buffer_window. now apply run_outcome, wf_Reset, wfr.
Qed.
Theorem C04_offset_bytes S (p : prog F32 F64 S) l it : reachable it ->
  let it' := snd (run p (ResetBytes l it)) in
  exists b, Buffer it' = Some b /\ b ++ rdata it' = skipn (InputOffset it') l /\ (InputOffset it' <= length l)%nat.
Proof.
  intros R it'. assert (H := run_offset F32 F64 p (ResetBytes l it) (wf_ResetBytes l it (wfr _ R)) eq_refl).
  rewrite stream_ResetBytes in H. exists (window it'). split; [|exact H].
  apply Buffer_window. now apply run_outcome, wf_ResetBytes, wfr.
Qed.

(** ** C05 *)
Theorem C05_skip it r : reachable it -> ~ dirty it ->
  (yields Skip it tt r <->
   exists w t j, stream it = w ++ t ++ r /\ ws w /\ value t j /\ vends t j (fin it) r).
Proof. intros R. apply Skip_yields. now apply wfr. Qed.

(** ** C06 *)
Theorem C06_SkipRaw it v r : reachable it -> ~ dirty it ->
  (yields SkipRaw it v r <->
   exists w j, stream it = w ++ v ++ r /\ ws w /\ value v j /\ vends v j (fin it) r).
Proof. intros R. apply SkipRaw_yields. now apply wfr. Qed.
Theorem C06_ReadRaw it v r : reachable it -> ~ dirty it ->
  (yields ReadRaw it v r <->
   exists w j, stream it = w ++ v ++ r /\ ws w /\ value v j /\ vends v j (fin it) r).
Proof. intros R. apply ReadRaw_yields. now apply wfr. Qed.
Theorem C06_AppendRaw b it v r : reachable it -> ~ dirty it ->
  (yields (AppendRaw b) it v r <->
   exists w t j, v = b ++ t /\ stream it = w ++ t ++ r /\ ws w /\ value t j /\ vends t j (fin it) r).
Proof. intros R. apply AppendRaw_yields. now apply wfr. Qed.
Theorem C06_ReadNumber it v r : reachable it -> ~ dirty it ->
  (yields ReadNumber it v r <->
   exists w, stream it = w ++ v ++ r /\ ws w /\ number v /\ num_ends v (fin it) r).
Proof. intros R. apply ReadNumber_yields. now apply wfr. Qed.

(** ** C07 *)
Theorem C07_read_sound it v r : float_sane F64 -> reachable it -> yields (Read F64) it v r ->
  exists w t j, stream it = w ++ t ++ r /\ ws w /\ value t j /\ go_value F64 (it_useNumber it) j v /\ vends t j (fin it) r.
Proof. intros S R. apply Read_yields_sound; auto. Qed.
Theorem C07_read_complete it w t j r : float_sane F64 -> reachable it -> ~ dirty it ->
  stream it = w ++ t ++ r -> ws w -> value t j -> nums_ok F64 (it_useNumber it) j -> vends t j (fin it) r ->
  exists v, yields (Read F64) it v r /\ go_value F64 (it_useNumber it) j v.
Proof. intros S R. apply Read_yields_complete; auto. Qed.

(** ** C08 *)
Theorem C08_read_skip it v r : float_sane F64 -> reachable it -> ~ dirty it ->
  yields (Read F64) it v r -> yields Skip it tt r.
Proof. intros S R. apply Read_then_Skip; auto. Qed.
Theorem C08_skip_read it r : float_sane F64 -> reachable it -> ~ dirty it -> yields Skip it tt r ->
  (forall w t j, stream it = w ++ t ++ r -> ws w -> value t j -> nums_ok F64 (it_useNumber it) j) ->
  exists v, yields (Read F64) it v r.
Proof. intros S R. apply Skip_then_Read; auto. Qed.
Theorem C08_useNumber it r : float_sane F64 -> reachable it -> ~ dirty it -> it_useNumber it = true ->
  (yields Skip it tt r <-> exists v, yields (Read F64) it v r).
Proof.
  intros S R D U. split.
  - intros Y. apply Skip_then_Read; auto. intros w t j _ _ _. rewrite U. apply nums_ok_number.
  - intros [v Y]. eapply Read_then_Skip; eauto.
Qed.

(** ** C09 *)
Theorem C09_string it s r : reachable it -> ~ dirty it ->
  (yields ReadString it s r <->
   exists w b, stream it = w ++ 34 :: b ++ 34 :: r /\ ws w /\ string_body b s).
Proof. intros R. apply ReadString_yields. now apply wfr. Qed.

(** ** C10 *)
Theorem C10_uint w it v r : w <> W8 -> reachable it -> ~ dirty it ->
  (yields (readUintOp w) it v r <->
   exists s t, stream it = s ++ t ++ r /\ ws s /\ uint_token t r (fin it) /\ v = dec t /\ v < 2 ^ wbits w).
Proof. intros Hw R. apply ReadUint_yields; auto. Qed.
Theorem C10_uint_overflow w it s t r : w <> W8 -> reachable it -> ~ dirty it ->
  stream it = s ++ t ++ r -> ws s -> uint_token t r (fin it) -> 2 ^ wbits w <= dec t ->
  fst (readUintOp w it) = Err EIntOverflow.
Proof. intros Hw R. apply ReadUint_overflow; auto. Qed.
(** Width 8: exact for tokens of up to three digits, never a wrapped value. *)
Theorem C10_uint8_short it s t r : reachable it -> ~ dirty it -> stream it = s ++ t ++ r -> ws s ->
  uint_token t r (fin it) -> (length t <= 3)%nat -> dec t < 256 -> yields ReadUint8 it (dec t) r.
Proof. intros R. apply ReadUint8_short; auto. Qed.
Theorem C10_uint8_range it v r : reachable it -> yields ReadUint8 it v r ->
  exists s t, stream it = s ++ t ++ r /\ ws s /\ digits t /\ v = dec t /\ 0 <= v < 256.
Proof. intros R. apply ReadUint8_range; auto. Qed.

(** ** C11 *)
Theorem C11_int w it v r : w <> W8 -> reachable it -> ~ dirty it ->
  (yields (readIntOp w) it v r <->
   exists s t, stream it = s ++ t ++ r /\ ws s /\ int_token t v r (fin it) /\ - 2 ^ (wbits w - 1) <= v < 2 ^ (wbits w - 1)).
Proof. intros Hw R. apply ReadInt_yields; auto. Qed.
Theorem C11_int_overflow w it s t v r : w <> W8 -> reachable it -> ~ dirty it ->
  stream it = s ++ t ++ r -> ws s -> int_token t v r (fin it) -> v < - 2 ^ (wbits w - 1) \/ 2 ^ (wbits w - 1) <= v ->
  fst (readIntOp w it) = Err EIntOverflow.
Proof. intros Hw R. eapply ReadInt_overflow; eauto. Qed.

(** ** C12 *)
Theorem C12_float F it v r : float_sane F -> reachable it -> ~ dirty it ->
  (yields (ReadFloat F) it v r <->
   exists w t, stream it = w ++ t ++ r /\ ws w /\ number t /\ num_ends t (fin it) r /\
     match t with
     | 45 :: u => exists x, fl_parse F u = inl x /\ v = fl_neg F x
     | _ => fl_parse F t = inl v
     end).
Proof. intros S R D. apply ReadFloat_sign; auto. Qed.

(** ** C14 *)
Theorem C14_bytes S (p : prog F32 F64 S) it l u d st st' : reachable it ->
  let a := ResetBytes l (reuse u d st (reset it)) in
  let c := ResetBytes l (newIter u d st') in
  fst (run p a) = fst (run p c) /\
  (forall s, fst (run p a) = Ok s ->
     stream (snd (run p a)) = stream (snd (run p c)) /\ InputOffset (snd (run p a)) = InputOffset (snd (run p c))).
Proof.
  intros R. apply run_history; auto using wf_ResetBytes, wf_reuse, wf_reset, wf_new, clean_ResetBytes.
  solve_same.
Qed.
Theorem C14_reader S (p : prog F32 F64 S) it r u d st st' : reachable it -> ~ rd_dirty r ->
  let a := Reset r (reuse u d st (reset it)) in
  let c := Reset r (newIter u d st') in
  fst (run p a) = fst (run p c) /\
  (forall s, fst (run p a) = Ok s ->
     stream (snd (run p a)) = stream (snd (run p c)) /\ InputOffset (snd (run p a)) = InputOffset (snd (run p c))).
Proof.
  intros R D. apply run_history; auto using wf_Reset, wf_reuse, wf_reset, wf_new, clean_Reset.
  repeat split; auto.
Qed.
(** Reset without going through the pool *)
Theorem C14_ResetBytes S (p : prog F32 F64 S) it l st : reachable it ->
  fst (run p (ResetBytes l it)) = fst (run p (ResetBytes l (newIter (it_useNumber it) (it_disallow it) st))).
Proof.
  intros R. apply run_history; auto using wf_ResetBytes, wf_new, clean_ResetBytes.
  solve_same.
Qed.

(** ** C15 *)
Theorem C15_array_cb S (cb : S -> prog F32 F64 S) G it s s' r :
  (forall s, handles F32 F64 (it_useNumber it) (cb s) (G s)) -> reachable it -> ~ dirty it ->
  (yields (ReadArrayCB (fun x => run (cb x)) s) it s' r <->
   exists w t js, stream it = w ++ t ++ r /\ ws w /\ value t (JArr js) /\ foldG G s js s').
Proof. intros H R D. eapply ReadArrayCB_visits; eauto. Qed.
Theorem C15_array_loop S (cb : S -> prog F32 F64 S) G it s s' r :
  (forall s, handles F32 F64 (it_useNumber it) (cb s) (G s)) -> reachable it -> ~ dirty it ->
  (yields (arrayClient (fun x => run (cb x)) s) it s' r <->
   exists w t js, stream it = w ++ t ++ r /\ ws w /\ value t (JArr js) /\ foldG G s js s').
Proof. intros H R D. eapply arrayClient_visits; eauto. Qed.
Theorem C15_object_cb S (cb : S -> bytes -> prog F32 F64 S) K it s s' r :
  (forall s k, handles F32 F64 (it_useNumber it) (cb s k) (K s k)) -> reachable it -> ~ dirty it ->
  (yields (ReadObjectCB (fun x k => run (cb x k)) s) it s' r <->
   exists w t ms, stream it = w ++ t ++ r /\ ws w /\ value t (JObj ms) /\ foldK K s ms s').
Proof. intros H R D. eapply ReadObjectCB_visits; eauto. Qed.
Theorem C15_object_loop S (cb : S -> bytes -> prog F32 F64 S) K it s s' r :
  (forall s k, handles F32 F64 (it_useNumber it) (cb s k) (K s k)) -> reachable it -> ~ dirty it ->
  (yields (objectClient (fun x k => run (cb x k)) s) it s' r <->
   exists w t ms, stream it = w ++ t ++ r /\ ws w /\ value t (JObj ms) /\ foldK K s ms s').
Proof. intros H R D. eapply objectClient_visits; eauto. Qed.
(** instances without hypotheses on callbacks: counting elements, collecting keys *)
Theorem C15_count it n r : reachable it -> ~ dirty it ->
  (yields (ReadArrayCB (fun x => run (F32 := F32) (F64 := F64) (Do OSkip (fun _ => Done (S x)))) 0%nat) it n r <->
   exists w t js, stream it = w ++ t ++ r /\ ws w /\ value t (JArr js) /\ n = length js).
Proof.
  intros R D. rewrite (C15_array_cb _ _ (fun s _ s' => s' = S s)); auto; [|intros s; apply handles_skip].
  split; intros (w & t & js & ? & ? & ? & H); exists w, t, js; repeat (split; auto); apply foldG_count in H || apply foldG_count; auto.
Qed.
Theorem C15_keys it ks r : reachable it -> ~ dirty it ->
  (yields (ReadObjectCB (fun x k => run (F32 := F32) (F64 := F64) (Do OSkip (fun _ => Done (x ++ [k])))) []) it ks r <->
   exists w t ms, stream it = w ++ t ++ r /\ ws w /\ value t (JObj ms) /\ ks = map fst ms).
Proof.
  intros R D. rewrite (C15_object_cb _ _ (fun s k _ s' => s' = s ++ [k])); auto; [|intros s k; apply handles_skip].
  split; intros (w & t & js & ? & ? & ? & H); exists w, t, js; repeat (split; auto); apply foldK_keys in H || apply foldK_keys; auto.
Qed.

(** ** C16 *)
Theorem C16_type it ty r : reachable it -> ~ dirty it ->
  (yields NextValueType it ty r <->
   exists w c l, stream it = w ++ c :: l /\ ws w /\ ~ is_ws c /\ r = c :: l /\ starts_type c ty).
Proof. intros R. apply NextValueType_spec; auto. Qed.
Theorem C16_then o it : reachable it -> ~ dirty it ->
  let it1 := snd (NextValueType it) in
  fst (exec F32 F64 o it1) = fst (exec F32 F64 o it) /\
  (forall a, fst (exec F32 F64 o it) = Ok a -> stream (snd (exec F32 F64 o it1)) = stream (snd (exec F32 F64 o it))).
Proof. intros R. apply NextValueType_then; auto. Qed.

(** ** C38 *)
Theorem C38_location e it : reachable it ->
  exists b, WrapError (WPlain e) it = Some (WDecode e b) /\ (length b <= 40)%nat /\
  exists p s, it_buffer it = p ++ b ++ s /\ (length p <= it_head it)%nat /\ (it_head it <= length p + length b)%nat.
Proof.
  intros R. destruct (errorLocation_ok it (wfr _ R)) as (b & E & H). exists b. unfold WrapError. rewrite E. auto.
Qed.
End Iterator.

(** ** C13 *)
Theorem C13_stack cs words d :
  stack_run (CPushArray :: cs) (mkStack words 0) = Some (list_run (CPushArray :: cs) []) /\
  stack_run cs (initObject (mkStack words d)) = Some (list_run cs [false]) /\
  stack_run cs (initArray (mkStack words d)) = Some (list_run cs [true]) /\
  stack_run cs (stack_init (mkStack words d)) = Some (list_run cs []).
Proof. apply stack_run_all. Qed.

(** * Examples *)
Definition skipP : prog textF textF unit := Do OSkip (fun _ => Done tt).
Example C01_ex : fst (Valid (bs " {""a"": [1.5e3, {}, null]} ") used) = true /\ fst (Valid (bs "[1,]") used) = false.
Proof. vm_compute. auto. Qed.
Example C02_ex : fst (run skipP (Reset (pieces "{""a"":[1,2]} x") used)) = Ok tt /\
  stream (snd (run skipP (Reset (pieces "{""a"":[1,2]} x") used))) = bs " x" /\
  fst (run skipP (ResetBytes (bs "{""a"":[1,2]} x") used)) = Ok tt.
Proof. vm_compute. auto. Qed.
(** Data delivered together with an error is dropped: results depend on the reader's style. *)
Theorem C02_dirty_refuted : exists (p : prog textF textF bool) r1 r2 it, reachable textF textF it /\
  rd_data r1 = rd_data r2 /\ rd_fin r1 = rd_fin r2 /\
  fst (run p (Reset r1 it)) <> fst (run p (Reset r2 it)).
Proof.
  exists (Do OReadBool (fun o => match o with RBool b => Done b | _ => Done false end)),
    (mkReader (bs "true") [(4%nat, true)] (EIO 7)), (mkReader (bs "true") [] (EIO 7)), used.
  split; [apply reachable_used|]. split; auto. split; auto. vm_compute. discriminate.
Qed.
Example C03_ex : fst (run skipP (Reset (mkReader (bs "[1, 2") [(1%nat, true); (2%nat, true); (0%nat, false)] (EIO 3)) used)) = Err (EIO 3).
Proof. reflexivity. Qed.
Example C04_ex : InputOffset (snd (run skipP (small " [1, 2] 5"))) = 7%nat /\ Buffer (snd (run skipP (small " [1, 2] 5"))) = Some [].
Proof. vm_compute. auto. Qed.
Example C05_ex : yields Skip (small " [1, {""k"":-2.5}]x") tt (bs "x").
Proof. vm_compute. auto. Qed.
Example C06_ex : yields SkipRaw (small " [1, {""k"":-2.5}]x") (bs "[1, {""k"":-2.5}]") (bs "x") /\
  yields ReadRaw (small " [1, {""k"":-2.5}]x") (bs "[1, {""k"":-2.5}]") (bs "x") /\
  yields (AppendRaw (bs "ab")) (small " ""q"" 1") (bs "ab""q""") (bs " 1") /\
  yields ReadNumber (small "-1.25e7,") (bs "-1.25e7") (bs ",").
Proof. vm_compute. auto 10. Qed.
Example C07_ex : yields (Read textF) (small " {""a"":1,""b"":[true,null],""a"":-2} ")
  (GMap [(bs "a", GFloat (F := textF) (true, bs "2")); (bs "b", GSlice [GBool true; GNil])]) (bs " ") .
Proof. vm_compute. auto. Qed.
Example C08_ex : yields Skip (small " {""a"":1,""b"":[true,null],""a"":-2} ") tt (bs " ").
Proof. vm_compute. auto. Qed.
Example C09_ex : yields ReadString (small " ""aé\n😀\ud800z"" ,") ([97; 195; 169; 10; 240; 159; 152; 128; 239; 191; 189; 122]) (bs " ,").
Proof. vm_compute. auto. Qed.
Example C10_ex : yields ReadUint64 (small " 18446744073709551615,") 18446744073709551615 (bs ",") /\
  fst (ReadUint64 (small " 18446744073709551616,")) = Err EIntOverflow /\
  uint_token (bs "18446744073709551616") (bs ",") EEOF.
Proof.
  split; [vm_compute; auto|]. split; [reflexivity|]. right. exists 49, (bs "8446744073709551616"). split; [reflexivity|].
  split; [lia|]. split; [apply digits_b; reflexivity|]. change (~ is_digit 44). unfold is_digit. lia.
Qed.
(** ReadUint8 and ReadInt8 stop after three digits. *)
Theorem C10_uint8_refuted : exists it t, reachable textF textF it /\ ~ dirty it /\
  stream it = t /\ uint_token t [] (fin it) /\ dec t = 1234 /\ yields ReadUint8 it 123 (bs "4").
Proof.
  exists (small "1234"), (bs "1234"). split; auto. split; auto. split; [reflexivity|].
  split; [|split; [reflexivity|vm_compute; auto]].
  right. exists 49, (bs "234"). split; auto. split; [lia|]. split; [apply digits_b; reflexivity|reflexivity].
Qed.
Theorem C11_int8_refuted : exists it t, reachable textF textF it /\ ~ dirty it /\
  stream it = t /\ int_token t (-1000) [] (fin it) /\ yields ReadInt8 it (-100) (bs "0").
Proof.
  exists (small "-1000"), (bs "-1000"). split; auto. split; auto. split; [reflexivity|].
  split; [|vm_compute; auto]. apply (it_neg (bs "1000")).
  right. exists 49, (bs "000"). split; auto. split; [lia|]. split; [apply digits_b; reflexivity|reflexivity].
Qed.
Example C11_ex : yields ReadInt16 (small " -32768 ") (-32768) (bs " ") /\ fst (ReadInt16 (small "32768")) = Err EIntOverflow.
Proof. vm_compute. auto. Qed.
Example C12_ex : yields (ReadFloat textF) (small " -0.5E3]") (true, bs "0.5e3") (bs "]") /\ float_sane textF.
Proof. split; [vm_compute; auto|apply textF_sane]. Qed.
Example C13_ex : stack_run [CPushArray; CPushObject; CTop; CPop; CPop; CPop] (stack_init (mkStack [12345] 7)) = Some [0; 2; 3; -1].
Proof. reflexivity. Qed.
Example C14_ex : fst (run skipP (ResetBytes (bs "[1]") (reuse true false (mkStack [9] 3) (reset used)))) = Ok tt.
Proof. reflexivity. Qed.
Example C15_ex : yields (ReadArrayCB (fun x => run (Do OSkip (fun _ => Done (S x)) : prog textF textF nat)) 0%nat) (small " [1, [2,3] ,""x""] ]") 3%nat (bs " ]") /\
  yields (ReadObjectCB (fun x k => run (Do OSkip (fun _ => Done (x ++ [k])) : prog textF textF (list bytes))) []) (small "{ ""a"":[2,3] ,""b"":0}]") [bs "a"; bs "b"] (bs "]") /\
  yields (arrayClient (fun x => run (Do OSkip (fun _ => Done (S x)) : prog textF textF nat)) 0%nat) (small " [1, [2,3] ,""x""] ]") 3%nat (bs " ]").
Proof. vm_compute. auto 10. Qed.
Example C16_ex : yields NextValueType (small "  [1]") ArrayValue (bs "[1]") /\ starts_type 91 ArrayValue.
Proof. split; [vm_compute; auto|constructor]. Qed.
Example C38_ex : WrapError (WPlain EIntOverflow) (snd (Skip (bytesOf "[1,2,3,4,5,6,7,8,9,10,x1,2,3,4,5,6,7,8,9,10,11,12,13,14]"))) =
  Some (WDecode EIntOverflow (bs "2,3,4,5,6,7,8,9,10,x1,2,3,4,5,6,7,8,9,10")).
Proof. reflexivity. Qed.

Print Assumptions C01_valid.
Print Assumptions C02_same_input.
Print Assumptions C02_readers.
Print Assumptions C02_bytes.
Print Assumptions C02_dirty.
Print Assumptions C02_dirty_refuted.
Print Assumptions C03_safe.
Print Assumptions C04_offset_reader.
Print Assumptions C04_offset_bytes.
Print Assumptions C05_skip.
Print Assumptions C06_SkipRaw.
Print Assumptions C06_ReadRaw.
Print Assumptions C06_AppendRaw.
Print Assumptions C06_ReadNumber.
Print Assumptions C07_read_sound.
Print Assumptions C07_read_complete.
Print Assumptions C08_read_skip.
Print Assumptions C08_skip_read.
Print Assumptions C08_useNumber.
Print Assumptions C09_string.
Print Assumptions C10_uint.
Print Assumptions C10_uint_overflow.
Print Assumptions C10_uint8_short.
Print Assumptions C10_uint8_range.
Print Assumptions C10_uint8_refuted.
Print Assumptions C11_int.
Print Assumptions C11_int_overflow.
Print Assumptions C11_int8_refuted.
Print Assumptions C12_float.
Print Assumptions C13_stack.
Print Assumptions C14_bytes.
Print Assumptions C14_reader.
Print Assumptions C14_ResetBytes.
Print Assumptions C15_array_cb.
Print Assumptions C15_array_loop.
Print Assumptions C15_object_cb.
Print Assumptions C15_object_loop.
Print Assumptions C15_count.
Print Assumptions C15_keys.
Print Assumptions C16_type.
Print Assumptions C16_then.
Print Assumptions C38_location.
