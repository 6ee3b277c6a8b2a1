(** C65: a value that is decoded at once, and one that is skipped, or read as raw text and decoded later. *)
From Coq Require Import String ZArith List Bool Lia.
From Verif Require Import Base ModelIter ModelStack ModelSkip ModelInt ModelFloat ModelRead ModelOps ModelFold ModelVal ModelDecoder Sim SimLib SimOps SimVal NumFacts StrFacts
  MachineFacts FloatFacts GrammarFacts IterFacts ValFacts DecFacts DecSound DecComplete SpecVal Spec SpecStream SpecFold FoldFacts TreeFacts SpecSpell SpellFacts SpellVal
  SpecOrder OrderFacts OrderVal AgainWhole SpecPatch PatchVal FirmFacts Properties1 Properties3 Properties4 Properties26 Properties27 Properties29.
Import ListNotations.
Local Open Scope Z_scope.

Section Typed.
Variables F32 F64 : floatOps.
Variable C : custom.
Variable E : env F32 F64 C.
Variable sf : Z -> Z.
Variable cs : bool.
Notation gval := (gval F32 F64 C).
Notation ReadVal := (ReadVal F32 F64 C E sf cs).
Notation Decode := (Decode F32 F64 C E sf cs).
Notation Unmarshal := (Unmarshal F32 F64 C E sf cs).
Notation vreachable := (vreachable F32 F64 C E sf cs).
Hypothesis sane32 : float_sane F32.
Hypothesis sane64 : float_sane F64.
Let wfv := vreachable_wf F32 F64 C E sf cs.

(** The rest [r] that is left before a value whose text is [t'] and that is followed by [r'] : all of the value is gone, or it is a number
    of which only the first part, a number as well, is gone. *)
Inductive left_over (t' r' : bytes) : bytes -> Prop :=
| lo_all : left_over t' r' r'
| lo_number t u : u <> [] -> t' = t ++ u -> number t -> number t' -> left_over t' r' (u ++ r').

(** as far as Skip goes *)
Theorem C65_skip n T (old : gval) it v r r' : vreachable it -> ~ dirty it -> yields (ReadVal n T old) it v r -> yields Skip it tt r' ->
  exists w t' j, stream it = w ++ t' ++ r' /\ ws w /\ value t' j /\ left_over t' r' r.
Proof using sane32 sane64.
  intros R D Y S. apply Skip_yields in S; auto. destruct S as (w' & t' & j & Es & Hw' & Hv & He). apply ReadVal_sound in Y; auto. destruct Y as (w & t & Es' & Hw & Hd).
  rewrite Es in Es'. symmetry in Es'. exists w', t', j. repeat (split; auto).
  destruct (in_step _ _ _ _ _ _ _ _ _ _ _ _ _ _ _ _ _ _ _ _ Hd Hw Hw' Hv He Es') as [[-> ->]|(_ & u & N & A & B & -> & ->)]; [constructor|now apply (lo_number _ _ t)].
Qed.
(** exactly as far, if the decoded value is followed by a separator or by the end of the input, as in an array, an object or a line *)
Theorem C65_exact n T (old : gval) it v r r' : vreachable it -> ~ dirty it -> yields (ReadVal n T old) it v r -> yields Skip it tt r' -> r = [] \/ sep r -> r = r'.
Proof using sane32 sane64.
  intros R D Y S H. destruct (C65_skip n T old it v r r' R D Y S) as (w & t' & j & _ & _ & _ & L). destruct L as [|t u N Et A B]; auto. exfalso.
  destruct H as [H|H]; [destruct u; [contradiction|discriminate]|]. apply N, (sep_numchar u r' (u ++ r')); auto. apply number_chars in B. rewrite Et in B. now apply Forall_app in B.
Qed.
(** exactly as far, if the value is not a number *)
Theorem C65_texts n T (old : gval) it v r r' w c x : vreachable it -> ~ dirty it -> yields (ReadVal n T old) it v r -> yields Skip it tt r' ->
  stream it = w ++ c :: x -> ws w -> ~ is_ws c -> c <> 45 -> ~ is_digit c -> r = r'.
Proof using sane32 sane64.
  intros R D Y S Es Hw Hc N1 N2. destruct (C65_skip n T old it v r r' R D Y S) as (w' & t' & j & Es' & Hw' & Hv & L). destruct L as [|t u N Et A B]; auto. exfalso.
  apply number_first in B. destruct B as (c' & y & -> & Hc'). rewrite Es in Es'. cbn [app] in Es'. apply ws_cut in Es'; auto; [|unfold is_ws, is_digit in *; lia]. destruct Es' as (_ & -> & _). tauto.
Qed.
(** the Decoder *)
Theorem C65_decode n T (old : gval) dc dc' v r' : vreachable (de_it dc) -> ~ dirty (de_it dc) -> Decode n T old dc = (Ok v, dc') -> yields Skip (de_it dc) tt r' ->
  exists w t' j, stream (de_it dc) = w ++ t' ++ r' /\ ws w /\ value t' j /\ left_over t' r' (stream (de_it dc')).
Proof using sane32 sane64.
  intros R D H S. unfold ModelDecoder.Decode in H. destruct (de_err dc); [discriminate|]. destruct (ReadVal n T old (de_it dc)) as [[x|e| |] it'] eqn:Er; try discriminate. injection H as -> <-.
  apply (C65_skip n T old (de_it dc) v); auto. split; rewrite Er; reflexivity.
Qed.
(** raw text that is decoded later gives the value that ReadVal would have given *)
Theorem C65_later n T (old : gval) it it2 raw r v : vreachable it -> vreachable it2 -> ~ dirty it -> it_useNumber it = it_useNumber it2 -> it_disallow it = it_disallow it2 ->
  yields ReadRaw it raw r -> fst (Unmarshal n T old raw it2) = Ok v -> exists n0, forall m, (n0 <= m)%nat -> yields (ReadVal m T old) it v r.
Proof using sane32 sane64.
  intros R R2 D Hn Hd S H. apply ReadRaw_yields in S; auto. destruct S as (w & j & Es & Hw & Hv & He).
  destruct (proj1 (C26_unmarshal F32 F64 C E sf cs sane32 sane64 T old raw it2 v R2)) as (w1 & t & w2 & Er & H1 & H2 & K); [eauto|].
  assert (Q : raw = t) by (refine (text_same F32 F64 C E _ _ sf cs _ _ _ [] raw [] w1 t w2 j v (ws_nil) (ws_nil) H1 H2 Hv K _); now rewrite app_nil_r). subst t.
  rewrite <- Hn, <- Hd in K. eapply ReadVal_complete; eauto. intros Hx. assert (j = JNum raw) by exact (value_det raw j _ Hv (v_num _ Hx)). subst. exact He.
Qed.
(** and the other way round *)
Theorem C65_now n T (old : gval) it it2 raw r r2 v : vreachable it -> vreachable it2 -> ~ dirty it -> it_useNumber it = it_useNumber it2 -> it_disallow it = it_disallow it2 ->
  yields ReadRaw it raw r -> yields (ReadVal n T old) it v r2 ->
  (r2 = r /\ exists n0, forall m, (n0 <= m)%nat -> fst (Unmarshal m T old raw it2) = Ok v) \/ (r2 <> r /\ left_over raw r r2).
Proof using sane32 sane64.
  intros R R2 D Hn Hd S Y. apply ReadRaw_yields in S; auto. destruct S as (w' & j & Es & Hw' & Hv & He). apply ReadVal_sound in Y; auto. destruct Y as (w & t & Es' & Hw & K).
  rewrite Es in Es'. symmetry in Es'. destruct (in_step _ _ _ _ _ _ _ _ _ _ _ _ _ _ _ _ _ _ _ _ K Hw Hw' Hv He Es') as [[-> ->]|(_ & u & N & A & B & -> & ->)].
  - left. split; auto. rewrite Hn, Hd in K. destruct (proj2 (C26_unmarshal F32 F64 C E sf cs sane32 sane64 T old raw it2 v R2)) as (m & L); [exists [], raw, []; rewrite app_nil_r; auto using ws_nil|].
    exact (C26_fuel F32 F64 C E sf cs sane32 sane64 T old _ it2 v m R2 L).
  - right. split; [|now apply (lo_number _ _ t)]. intros Eu. apply (f_equal (@List.length Z)) in Eu. rewrite app_length in Eu. destruct u; [contradiction|cbn in Eu; lia].
Qed.
End Typed.

(** ** Examples and refutations *)
Definition stepText : string := "  {""id"":""-7"",""on"":"" true"",""raw"":[ 1,2],""j"":{""a"" :1},""N"":""12"",""By"":{""2"":true}} , 5".
Example C65_skip_ex : vreachable textF textF demoC demoE noFold true (smallv false stepText) /\ ~ dirty (smallv false stepText) /\
  yields Skip (smallv false stepText) tt (bs " , 5") /\ exists v, yields (dReadVal 9 deedT (zero _ _ _ demoE deedT)) (smallv false stepText) v (bs " , 5") /\ v <> zero _ _ _ demoE deedT.
Proof.
  split; [apply reachable_smallv|]. split; [apply clean_smallv|]. split; [split; vm_compute; reflexivity|]. eexists. split; [split; vm_compute; reflexivity|]. discriminate.
Qed.
Example C65_exact_ex : sep (bs " , 5"). Proof. eexists _, _. split; [reflexivity|]. left. left. reflexivity. Qed.
Example C65_texts_ex : stream (smallv false stepText) = [32; 32] ++ 123 :: tl (tl (tl (bs stepText))) /\ ~ is_digit 123.
Proof. split; [vm_compute; reflexivity|unfold is_digit; lia]. Qed.
Example C65_decode_ex : exists v dc', Decode textF textF demoC demoE noFold true 9 deedT (zero _ _ _ demoE deedT) (mkDecoderS (smallv false stepText) None) = (Ok v, dc') /\ stream (de_it dc') = bs " , 5".
Proof. eexists _, _. split; vm_compute; reflexivity. Qed.
Example C65_later_ex : exists raw v, yields ReadRaw (smallv false stepText) raw (bs " , 5") /\ fst (dUnmarshal 9 deedT (zero _ _ _ demoE deedT) raw (used2 false)) = Ok v /\
  yields (dReadVal 9 deedT (zero _ _ _ demoE deedT)) (smallv false stepText) v (bs " , 5").
Proof. eexists _, _. split; [split; vm_compute; reflexivity|]. split; [vm_compute; reflexivity|]. split; vm_compute; reflexivity. Qed.
Example C65_now_ex : vreachable textF textF demoC demoE noFold true (used2 false) /\ it_useNumber (smallv false stepText) = it_useNumber (used2 false) /\ it_disallow (smallv false stepText) = it_disallow (used2 false).
Proof. split; [apply reachable_used2|]. split; reflexivity. Qed.
(** An integer: 1.5 is read as 1, and .5 is left, whereas the raw text 1.5 is refused. *)
Theorem C65_number_refuted : exists T (old v : dval) it raw r r2 n, vreachable textF textF demoC demoE noFold true it /\ ~ dirty it /\ yields ReadRaw it raw r /\ yields Skip it tt r /\
  yields (dReadVal n T old) it v r2 /\ r2 <> r /\ left_over raw r r2 /\ forall m v', fst (dUnmarshal m T old raw (used2 false)) <> Ok v'.
Proof.
  exists (TInt true W8), (VInt 0), (VInt 1), (smallv false "1.5 "), (bs "1.5"), (bs " "), (bs ".5 "), 9%nat. split; [apply reachable_smallv|]. split; [apply clean_smallv|].
  split; [split; vm_compute; reflexivity|]. split; [split; vm_compute; reflexivity|]. split; [split; vm_compute; reflexivity|]. split; [discriminate|]. split.
  - assert (N : forall l, match p_tree EEOF l with POk (JNum x) [] => bytes_eqb x l | _ => false end = true -> number l).
    { intros l H. destruct (p_tree EEOF l) as [[| |x| | |] [|]|] eqn:Ep; try discriminate. destruct (bytes_eqb_spec x l) as [<-|]; [|discriminate].
      apply tree_spec in Ep. destruct Ep as (w & t & Es & Hw & Hv & _). now inversion Hv; subst. }
    apply (lo_number (bs "1.5") (bs " ") (bs "1") (bs ".5")); [discriminate|reflexivity|apply N; vm_compute; reflexivity|apply N; vm_compute; reflexivity].
  - intros m v' K. destruct (C26_fuel textF textF demoC demoE noFold true textF_sane textF_sane _ _ _ _ _ _ (reachable_used2 false) K) as (n0 & K').
    specialize (K' (n0 + 9)%nat ltac:(lia)). replace (n0 + 9)%nat with (S (S (S (S (S (S (S (S (S n0))))))))) in K' by lia. vm_compute in K'. discriminate.
Qed.

Print Assumptions C65_skip.
Print Assumptions C65_exact.
Print Assumptions C65_texts.
Print Assumptions C65_decode.
Print Assumptions C65_later.
Print Assumptions C65_now.
Print Assumptions C65_number_refuted.
