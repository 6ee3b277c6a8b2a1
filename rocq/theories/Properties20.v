(** Property C53 (no call of the reader beyond a complete value).  Each theorem is followed by an example that meets its hypotheses. *)
From Coq Require Import String ZArith List Bool Lia Arith.
From Verif Require Import Spec SpecRead SpecStream SpecFold FloatFacts FoldFacts IterFacts Sim SimLib SimOps SimVal Properties1 Properties2.
From Verif Require Import NumFacts GrammarFacts MachineFacts SimSkip SimRead ModelIter ModelStack ModelSkip ModelRead Properties3.
From Verif Require Import Base ModelInt ModelFloat ModelOps ModelFold ModelVal ModelDecoder SpecVal ValFacts Properties4.
From Verif Require Import DecComplete SpecPrompt PromptStep PromptFacts.
Import ListNotations.
Local Open Scope Z_scope.

Section Prompt.
Variables F32 F64 : floatOps.
Variable C : custom.
Notation gval := (gval F32 F64 C).
Variable E : env F32 F64 C.
Variable sf : Z -> Z.                    (* unicode.SimpleFold *)
Variable cs : bool.                      (* CaseSensitive *)
Notation lookup := (findField sf cs).
Notation vreachable := (vreachable F32 F64 C E sf cs).
Notation decodes b d := (decodes F32 F64 C E lookup b d).
Notation ReadVal := (ReadVal F32 F64 C E sf cs).
Notation Decode := (Decode F32 F64 C E sf cs).
Let wfv := vreachable_wf F32 F64 C E sf cs.

Lemma step_run S (p : prog F32 F64 S) it : wf it -> step_ok it (snd (run p it)).
Proof. intros W. now apply run_outcome. Qed.
Lemma step_ReadVal n T old it : wf it -> step_ok it (snd (ReadVal n T old it)).
Proof. intros W. assert (H := sim_ReadVal F32 F64 C E sf cs n T old it W). destruct (ReadVal n T old it). apply H. Qed.
Lemma run_fuel S (p : prog F32 F64 S) it : wf it -> fst (run p it) <> OutOfFuel.
Proof. intros W. now apply run_safe. Qed.
Lemma ReadVal_fuel n T old it : wf it -> fst (ReadVal n T old it) <> OutOfFuel.
Proof. intros W. now apply ReadVal_safe. Qed.

(** ** Any calls *)
(** The client program [p] runs on an iterator whose buffer holds [b] and whose reader delivers [d] byte by
    byte first.  If the program does not get to the end of [b ++ d] - that is, if it would not notice that
    an error comes there -, then it has the same result, and it reads only a part of [d]. *)
Theorem C53_program S (p : prog F32 F64 S) it x r r2 b d n : vreachable it -> vreachable x -> it_useNumber x = it_useNumber it ->
  it_reader it = Some r -> Buffer it = Some b -> arrives r2 r d ->
  let there := run p (Reset (mkReader (b ++ d) [] (EIO n)) x) in
  fst there <> Err (EIO n) ->
  fst (run p it) = fst there /\
  exists d1 d' r' b', d = d1 ++ d' /\ arrives r2 r' d' /\ it_reader (snd (run p it)) = Some r' /\ Buffer (snd (run p it)) = Some b' /\
    (forall s, fst there = Ok s -> b' ++ d' = stream (snd there)).
Proof.
  intros Ri Rx Eu Er Eb Ar there N. unfold there in *. clear there.
  assert (Wi := wfv _ Ri). assert (Wx := wf_Reset (mkReader (b ++ d) [] (EIO n)) x (wfv _ Rx)).
  rewrite (Buffer_window it Wi) in Eb. injection Eb as <-.
  set (c := withR (dripping d (EIO n)) it). set (y := Reset _ x) in *.
  assert (Wc : wf c) by (eapply wf_withR; eauto).
  destruct (run_same F32 F64 p y c Wx Wc) as [E1 E2].
  { apply clean_Reset. intros [_ K]. inversion K. }
  { apply dripping_clean. }
  { split; [apply stream_Reset|]. split; [reflexivity|exact Eu]. }
  destruct (prompt (run p) (fun n r2 => fol_run n r2 F32 F64 p) (step_run S p) it r r2 d n Wi Er Ar) as (E3 & d1 & d' & r' & H1 & H2 & H3 & H4).
  { fold c. rewrite <- E1. exact N. }
  { fold c. now apply run_fuel. }
  fold c in E3, H4. split; [congruence|]. exists d1, d', r', (window (snd (run p it))). split; auto. split; auto. split; auto.
  split; [apply Buffer_window; now apply run_outcome|]. intros s Hs. rewrite H4. destruct (E2 s Hs) as (K & _). now rewrite K.
Qed.
(** the same for the decoder of a type *)
Theorem C53_typed m T old it x r r2 b d n : vreachable it -> vreachable x -> it_useNumber x = it_useNumber it -> it_disallow x = it_disallow it ->
  it_reader it = Some r -> Buffer it = Some b -> arrives r2 r d ->
  let there := ReadVal m T old (Reset (mkReader (b ++ d) [] (EIO n)) x) in
  fst there <> Err (EIO n) ->
  fst (ReadVal m T old it) = fst there /\
  exists d1 d' r' b', d = d1 ++ d' /\ arrives r2 r' d' /\ it_reader (snd (ReadVal m T old it)) = Some r' /\ Buffer (snd (ReadVal m T old it)) = Some b' /\
    (forall v, fst there = Ok v -> b' ++ d' = stream (snd there)).
Proof.
  intros Ri Rx Eu Ed Er Eb Ar there N. unfold there in *. clear there.
  assert (Wi := wfv _ Ri). assert (Wx := wf_Reset (mkReader (b ++ d) [] (EIO n)) x (wfv _ Rx)).
  rewrite (Buffer_window it Wi) in Eb. injection Eb as <-.
  set (c := withR (dripping d (EIO n)) it). set (y := Reset _ x) in *.
  assert (Wc : wf c) by (eapply wf_withR; eauto).
  destruct (ReadVal_same F32 F64 C E sf cs m T old y c Wx Wc) as [E1 E2]; auto.
  { apply clean_Reset. intros [_ K]. inversion K. }
  { apply dripping_clean. }
  destruct (prompt (ReadVal m T old) (fun n r2 => fol_ReadVal n r2 F32 F64 C E sf cs m T old) (step_ReadVal m T old) it r r2 d n Wi Er Ar) as (E3 & d1 & d' & r' & H1 & H2 & H3 & H4).
  { fold c. rewrite <- E1. exact N. }
  { fold c. now apply ReadVal_fuel. }
  fold c in E3, H4. split; [congruence|]. exists d1, d', r', (window (snd (ReadVal m T old it))). split; auto. split; auto. split; auto.
  split; [apply Buffer_window; assert (K := sim_ReadVal F32 F64 C E sf cs m T old it Wi); destruct (ReadVal m T old it); apply K|].
  intros s Hs. rewrite H4. now rewrite (E2 s Hs).
Qed.

(** ** Complete values *)
(** [done r2 rest it']: the iterator [it'] has [rest] left of the bytes that were in the buffer or were
    to arrive before the reader is [r2]; none was asked for beyond them. *)
Definition done (r2 : reader) (rest : bytes) (it' : iter) : Prop :=
  exists b' d' r', Buffer it' = Some b' /\ it_reader it' = Some r' /\ arrives r2 r' d' /\ b' ++ d' = rest.
Lemma done_intro {A} (m : M A) it r r2 d n a rest : (forall n r2, fol n r2 m m) ->
  (forall it, wf it -> wf (snd (m it)) /\ step_ok it (snd (m it))) -> vreachable it -> it_reader it = Some r -> arrives r2 r d ->
  yields m (withR (dripping d (EIO n)) it) a rest -> exists it', m it = (Ok a, it') /\ done r2 rest it'.
Proof.
  intros F K R Er Ar Y. assert (W := wfv _ R).
  destruct (prompt_yields m F (fun it W => proj2 (K it W)) it r r2 d n a rest W Er Ar Y) as (it' & d1 & d' & r' & H1 & _ & H2 & H3 & H4).
  exists it'. split; auto. destruct (K it W) as [W' _]. rewrite H1 in W'. exists (window it'), d', r'. auto using Buffer_window.
Qed.
Lemma sim_keeps {A} (m : M A) p : sim m p -> forall it, wf it -> wf (snd (m it)) /\ step_ok it (snd (m it)).
Proof. intros H it W. assert (K := H it W I). destruct (m it). destruct K as (? & ? & _). auto. Qed.
Theorem C53_skip it r r2 b d w t j rest : vreachable it -> it_reader it = Some r -> Buffer it = Some b -> arrives r2 r d ->
  b ++ d = w ++ t ++ rest -> ws w -> value t j -> complete t rest ->
  exists it', Skip it = (Ok tt, it') /\ done r2 rest it'.
Proof.
  intros R Er Eb Ar Es Hw Hv Hc. assert (W := wfv _ R). rewrite (Buffer_window it W) in Eb. injection Eb as <-.
  apply (done_intro Skip it r r2 d 0 tt rest); auto; [intros; apply fol_Skip|apply (sim_keeps _ _ sim_Skip)|].
  apply Skip_yields; [eapply wf_withR; eauto|apply dripping_clean|]. exists w, t, j. split; auto. split; auto. split; auto.
  now apply (complete_vends t j rest 0).
Qed.
Hypothesis sane32 : float_sane F32.
Hypothesis sane64 : float_sane F64.
Theorem C53_read it r r2 b d w t j rest : vreachable it -> it_reader it = Some r -> Buffer it = Some b -> arrives r2 r d ->
  b ++ d = w ++ t ++ rest -> ws w -> value t j -> nums_ok F64 (it_useNumber it) j -> complete t rest ->
  exists v it', Read F64 it = (Ok v, it') /\ go_value F64 (it_useNumber it) j v /\ done r2 rest it'.
Proof.
  intros R Er Eb Ar Es Hw Hv Hn Hc. assert (W := wfv _ R). rewrite (Buffer_window it W) in Eb. injection Eb as <-.
  destruct (Read_yields_complete F64 sane64 (withR (dripping d (EIO 0)) it) w t j rest) as (v & Y & G); auto.
  { eapply wf_withR; eauto. } { apply dripping_clean. } { now apply (complete_vends t j rest 0). }
  exists v. destruct (done_intro (Read F64) it r r2 d 0 v rest) as (it' & K1 & K2); eauto; [intros; apply fol_Read|].
  intros x Wx. assert (K := sim_Read F64 (it_useNumber x) x Wx eq_refl). destruct (Read F64 x). destruct K as (? & ? & _). auto.
Qed.
Theorem C53_readval T old v it r r2 b d w t rest : vreachable it -> it_reader it = Some r -> Buffer it = Some b -> arrives r2 r d ->
  b ++ d = w ++ t ++ rest -> ws w -> decodes (it_useNumber it) (it_disallow it) T noOpts old t v -> complete t rest ->
  exists n0, forall n, (n0 <= n)%nat -> exists it', ReadVal n T old it = (Ok v, it') /\ done r2 rest it'.
Proof.
  intros R Er Eb Ar Es Hw Hd Hc. assert (W := wfv _ R). rewrite (Buffer_window it W) in Eb. injection Eb as <-.
  destruct (ReadVal_complete F32 F64 C E sf cs sane32 sane64 T old (withR (dripping d (EIO 0)) it) v w t rest) as (n0 & H0); auto.
  { eapply wf_withR; eauto. } { apply dripping_clean. } { intros Hn. now apply complete_ends. }
  exists n0. intros n Hn. apply (done_intro (ReadVal n T old) it r r2 d 0 v rest); auto; [intros; apply fol_ReadVal|].
  intros x Wx. assert (K := sim_ReadVal F32 F64 C E sf cs n T old x Wx). destruct (ReadVal n T old x). destruct K as (? & ? & _). auto.
Qed.
(** ** The Decoder *)
(** the texts of a queue of values in the buffer, and what is left after them *)
Inductive queue (u ds : bool) : bytes -> list (ty * gval) -> list gval -> bytes -> Prop :=
| q_nil rest : queue u ds rest [] [] rest
| q_next w t s T old v ts vs rest : ws w -> decodes u ds T noOpts old t v -> complete t s -> queue u ds s ts vs rest ->
    queue u ds (w ++ t ++ s) ((T, old) :: ts) (v :: vs) rest.
(** one call of Decode for each variable *)
Fixpoint decodeAll (n : nat) (ts : list (ty * gval)) (dc : decoderS) : list (res gval) * decoderS :=
  match ts with
  | [] => ([], dc)
  | (T, old) :: ts => let '(x, dc1) := Decode n T old dc in let '(xs, dc2) := decodeAll n ts dc1 in (x :: xs, dc2)
  end.
Theorem C53_decoder u ds b ts vs rest : queue u ds b ts vs rest ->
  exists n0, forall n, (n0 <= n)%nat -> forall dc r, vreachable (de_it dc) -> de_err dc = None -> it_useNumber (de_it dc) = u -> it_disallow (de_it dc) = ds ->
  it_reader (de_it dc) = Some r -> Buffered dc = Some b ->
  exists dc', decodeAll n ts dc = (map Ok vs, dc') /\ it_reader (de_it dc') = Some r /\ Buffered dc' = Some rest /\ de_err dc' = None.
Proof.
  induction 1 as [rest|w t s T old v ts vs rest Hw Hd Hc Hq (n1 & IH)].
  - exists 0%nat. intros n _ dc r R He Hu Hds Er Eb. exists dc. auto.
  - destruct (proj1 (decode_complete F32 F64 C E u ds sf cs sane32 sane64) _ _ _ _ _ Hd) as (n0 & H0).
    exists (Nat.max n0 n1). intros n Hn dc r R He Hu Hds Er Eb. assert (W := wfv _ R). unfold Buffered in Eb. rewrite (Buffer_window _ W) in Eb. injection Eb as Ew.
    assert (Y : yields (ReadVal n T old) (withR (dripping [] (EIO 0)) (de_it dc)) v s).
    { apply (pure_yields _ _ _ (sim_decode F32 F64 C E u ds sf cs n T noOpts old)); [eapply wf_withR; eauto|split; auto|apply dripping_clean|].
      rewrite dripping_stream, app_nil_r, Ew. apply H0; [lia|auto|]. intros Nt. now apply complete_ends. }
    destruct (prompt_yields (ReadVal n T old) (fun n2 r2 => fol_ReadVal n2 r2 F32 F64 C E sf cs n T old) (step_ReadVal n T old) (de_it dc) r r [] 0 v s W Er (ar_none r) Y)
      as (it' & d1 & d' & r' & K1 & K2 & K3 & K4 & K5).
    symmetry in K2. apply app_eq_nil in K2. destruct K2 as [-> ->]. assert (r' = r) by (inversion K3; auto). subst r'. rewrite app_nil_r in K5.
    assert (R' : vreachable it') by (assert (Q := vr_ReadVal F32 F64 C E sf cs n T old _ R); now rewrite K1 in Q).
    assert (Sk := step_ReadVal n T old (de_it dc) W). rewrite K1 in Sk. cbn [snd] in Sk. destruct Sk as [us Mv].
    destruct (IH n ltac:(lia) (mkDecoderS it' None) r) as (dc' & L1 & L2 & L3 & L4); auto.
    + cbn [de_it]. rewrite (mv_num _ _ _ Mv). exact Hu.
    + cbn [de_it]. rewrite (mv_dis _ _ _ Mv). exact Hds.
    + unfold Buffered. cbn [de_it]. rewrite (Buffer_window _ (wfv _ R')). now rewrite K5.
    + exists dc'. split; auto. cbn [decodeAll]. unfold ModelDecoder.Decode. rewrite He, K1, L1. reflexivity.
Qed.
(** More does not ask for bytes either if there is one that is not white space *)
Theorem C53_more dc r w c l : vreachable (de_it dc) -> de_err dc = None -> it_reader (de_it dc) = Some r ->
  Buffered dc = Some (w ++ c :: l) -> ws w -> ~ is_ws c ->
  exists dc', More dc = (true, dc') /\ it_reader (de_it dc') = Some r /\ Buffered dc' = Some (c :: l).
Proof.
  intros R He Er Eb Hw Hc. assert (W := wfv _ R). unfold Buffered in Eb. rewrite (Buffer_window _ W) in Eb. injection Eb as Ew.
  assert (Y : exists a, yields nextToken (withR (dripping [] (EIO 0)) (de_it dc)) a (c :: l)).
  { assert (K := sim_nextToken (withR (dripping [] (EIO 0)) (de_it dc)) (wf_withR _ _ _ Er W) I).
    destruct (nextToken (withR (dripping [] (EIO 0)) (de_it dc))) as [x it1] eqn:En. destruct K as (_ & _ & [K|[K _]]); [|now apply dripping_clean in K].
    rewrite dripping_stream, app_nil_r, Ew in K. rewrite nextToken_run in K by auto. destruct K as (a & -> & Es & _). exists a. split; now rewrite En. }
  destruct Y as (a & Y).
  assert (St : forall it, wf it -> step_ok it (snd (nextToken it))).
  { intros x Wx. assert (K := sim_nextToken x Wx I). destruct (nextToken x). apply K. }
  destruct (prompt_yields nextToken (fun n2 r2 => fol_nextToken n2 r2) St (de_it dc) r r [] 0 a (c :: l) W Er (ar_none r) Y)
    as (it' & d1 & d' & r' & K1 & K2 & K3 & K4 & K5).
  symmetry in K2. apply app_eq_nil in K2. destruct K2 as [-> ->]. assert (r' = r) by (inversion K3; auto). subst r'. rewrite app_nil_r in K5.
  exists (mkDecoderS it' None). unfold More. rewrite He, K1. split; auto. split; auto. unfold Buffered. cbn [de_it].
  assert (Kw := sim_nextToken (de_it dc) W I). rewrite K1 in Kw. rewrite (Buffer_window it') by apply Kw. now rewrite K5.
Qed.
End Prompt.

(** ** Examples *)
(** the reader has delivered the beginning of the text, it will deliver three bytes one by one next *)
Definition slow (first : nat) (s : string) : iter :=
  snd (run (F32 := textF) (F64 := textF) (Do ONextValueType (fun _ => Done tt))
         (Reset (mkReader (bs s) [(first, false); (1%nat, false); (1%nat, false); (1%nat, false); (5%nat, false)] (EIO 7)) (used2 true))).
Lemma slow_reachable k s : vreachable textF textF demoC demoE noFold true (slow k s).
Proof. apply vr_run. apply (vr_attach textF textF demoC demoE noFold true (SReader (mkReader _ _ _))). apply reachable_used2. Qed.
Definition tailOf (s : string) : reader := mkReader (bs s) [(5%nat, false)] (EIO 7).
Lemma one_byte r2 c l sc f d : arrives r2 (mkReader l sc f) d -> arrives r2 (mkReader (c :: l) ((1%nat, false) :: sc) f) (c :: d).
Proof. intros H. eapply ar_byte; [|exact H]. intros [|k] K; [lia|]. unfold rd_read. simpl. now destruct l. Qed.
(** two calls: everything up to the bracket is read, and nothing more *)
Example C53_program_ex :
  let p := Do OSkip (fun _ => Done tt) : prog textF textF unit in
  let it := slow 2 "[1,2]true" in
  Buffer it = Some (bs "[1") /\ (exists r, it_reader it = Some r /\ arrives (tailOf "true") r (bs ",2]")) /\
  fst (run p (Reset (mkReader (bs "[1" ++ bs ",2]") [] (EIO 3)) used)) = Ok tt /\
  fst (run p it) = Ok tt /\ it_reader (snd (run p it)) = Some (tailOf "true") /\ Buffer (snd (run p it)) = Some [].
Proof.
  cbv zeta. split; [vm_compute; reflexivity|]. split.
  { eexists. split; [vm_compute; reflexivity|]. repeat apply one_byte. apply ar_none. }
  split; [vm_compute; reflexivity|]. split; [vm_compute; reflexivity|]. split; vm_compute; reflexivity.
Qed.
(** a mistake is reported before the rest of the text has come *)
Example C53_typed_ex :
  let T := TSlice (TInt true W8) in
  let read := ReadVal textF textF demoC demoE noFold true 9 T (VSlice None) in
  let it := slow 4 "[1 2,true" in
  Buffer it = Some (bs "[1 2") /\ arrives (mkReader (bs ",true") [(1%nat, false); (1%nat, false); (1%nat, false); (5%nat, false)] (EIO 7))
    (mkReader (bs ",true") [(1%nat, false); (1%nat, false); (1%nat, false); (5%nat, false)] (EIO 7)) [] /\
  fst (read (Reset (mkReader (bs "[1 2") [] (EIO 3)) (used2 true))) = Err (EUnexpectedByte 50 93 44) /\
  fst (read it) = Err (EUnexpectedByte 50 93 44) /\ it_reader (snd (read it)) = it_reader it.
Proof.
  cbv zeta. split; [vm_compute; reflexivity|]. split; [apply ar_none|]. split; [vm_compute; reflexivity|]. split; vm_compute; reflexivity.
Qed.

Lemma list_value : value (bs "[true]") (JArr [JBool true]).
Proof. apply (v_arr (bs "true")). apply (el_one [] (bs "true") (JBool true) []); constructor. Qed.
Lemma list_complete t r : complete (91 :: t) r.
Proof. intros H. destruct (number_first _ H) as (c & t' & [= <- <-] & Hc). unfold is_digit in Hc. lia. Qed.
Example C53_skip_ex :
  let it := slow 3 "[true]true" in
  Buffer it = Some (bs "[tr") /\ (exists r, it_reader it = Some r /\ arrives (tailOf "true") r (bs "ue]")) /\
  bs "[tr" ++ bs "ue]" = [] ++ bs "[true]" ++ [] /\ value (bs "[true]") (JArr [JBool true]) /\ complete (bs "[true]") [] /\
  fst (Skip it) = Ok tt /\ it_reader (snd (Skip it)) = Some (tailOf "true").
Proof.
  cbv zeta. split; [vm_compute; reflexivity|]. split.
  { eexists. split; [vm_compute; reflexivity|]. repeat apply one_byte. apply ar_none. }
  split; [reflexivity|]. split; [exact list_value|]. split; [apply list_complete|]. split; vm_compute; reflexivity.
Qed.
Example C53_read_ex :
  let it := slow 3 "[true]true" in
  nums_ok textF false (JArr [JBool true]) /\ it_useNumber it = false /\
  fst (Read textF it) = Ok (GSlice [GBool true]) /\ it_reader (snd (Read textF it)) = Some (tailOf "true").
Proof. cbv zeta. split; [repeat constructor|]. split; [vm_compute; reflexivity|]. split; vm_compute; reflexivity. Qed.
Lemma list_decodes u d : decodes textF textF demoC demoE (findField noFold true) u d (TSlice TBool) noOpts (VSlice None) (bs "[true]") (VSlice (Some [VBool true])).
Proof.
  apply d_slice with (ts := [bs "true"]).
  - apply (array_items (bs "true")). apply (items_one [] (bs "true") []); constructor.
  - apply el_next; [apply d_true|apply SpecVal.el_nil].
Qed.
Example C53_readval_ex :
  let read := ReadVal textF textF demoC demoE noFold true 9 (TSlice TBool) (VSlice None) in
  let it := slow 3 "[true]true" in
  Buffer it = Some (bs "[tr") /\ (exists r, it_reader it = Some r /\ arrives (tailOf "true") r (bs "ue]")) /\
  decodes textF textF demoC demoE (findField noFold true) (it_useNumber it) (it_disallow it) (TSlice TBool) noOpts (VSlice None) (bs "[true]") (VSlice (Some [VBool true])) /\
  fst (read it) = Ok (VSlice (Some [VBool true])) /\ it_reader (snd (read it)) = Some (tailOf "true").
Proof.
  cbv zeta. split; [vm_compute; reflexivity|]. split.
  { eexists. split; [vm_compute; reflexivity|]. repeat apply one_byte. apply ar_none. }
  split; [apply list_decodes|]. split; vm_compute; reflexivity.
Qed.
(** two values and the beginning of a third one are in the buffer *)
Example C53_decoder_ex :
  let vars := [(TBool, VBool false); (TSlice TBool, VSlice None)] in
  let dc := mkDecoderS (slow 15 " true [true] tru") None in
  queue textF textF demoC demoE noFold true false true (bs "true [true] tr") vars [VBool true; VSlice (Some [VBool true])] (bs " tr") /\
  it_useNumber (de_it dc) = false /\ it_disallow (de_it dc) = true /\ Buffered dc = Some (bs "true [true] tr") /\
  fst (decodeAll textF textF demoC demoE noFold true 9 vars dc) = [Ok (VBool true); Ok (VSlice (Some [VBool true]))] /\
  it_reader (de_it (snd (decodeAll textF textF demoC demoE noFold true 9 vars dc))) = it_reader (de_it dc).
Proof.
  cbv zeta. split.
  { apply (q_next textF textF demoC demoE noFold true false true [] (bs "true") (bs " [true] tr")); [constructor|apply d_true| |].
    - intros H. destruct (number_first _ H) as (c & t' & [= <- <-] & Hc). unfold is_digit in Hc. lia.
    - apply (q_next textF textF demoC demoE noFold true false true (bs " ") (bs "[true]") (bs " tr")); [repeat constructor; unfold is_ws; lia|apply list_decodes|apply list_complete|].
      apply q_nil. }
  split; [vm_compute; reflexivity|]. split; [vm_compute; reflexivity|]. split; [vm_compute; reflexivity|]. split; vm_compute; reflexivity.
Qed.
Example C53_more_ex :
  let dc := mkDecoderS (slow 3 "  xyz") None in
  Buffered dc = Some (bs "x") /\ ~ is_ws 120 /\ fst (More dc) = true /\ it_reader (de_it (snd (More dc))) = it_reader (de_it dc).
Proof. cbv zeta. split; [vm_compute; reflexivity|]. split; [unfold is_ws; lia|]. split; vm_compute; reflexivity. Qed.

(** A number that ends with the buffer is not known to be complete: the reader is called, and its error is
    what the caller gets. *)
Theorem C53_number_refuted : exists it r t, vreachable textF textF demoC demoE noFold true it /\ it_reader it = Some r /\
  Buffer it = Some t /\ number t /\ fst (Skip it) = Err (rd_fin r) /\ it_reader (snd (Skip it)) <> Some r.
Proof.
  exists (slow 2 "12"), (mkReader [] [(1%nat, false); (1%nat, false); (1%nat, false); (5%nat, false)] (EIO 7)), (bs "12").
  split; [apply slow_reachable|]. split; [vm_compute; reflexivity|]. split; [vm_compute; reflexivity|]. split.
  { apply num_pos. apply (un (bs "12") [] []); [apply (ip_pos 49 [50]); [lia|repeat constructor; unfold is_digit; lia]|constructor|constructor]. }
  split; vm_compute; [reflexivity|discriminate].
Qed.
Print Assumptions C53_program.
Print Assumptions C53_typed.
Print Assumptions C53_skip.
Print Assumptions C53_read.
Print Assumptions C53_readval.
Print Assumptions C53_decoder.
Print Assumptions C53_more.
Print Assumptions C53_number_refuted.
