(** The integer readers against decimal numerals. *)
From Coq Require Import String ZArith List Bool Lia Arith.
From Verif Require Import Base ModelIter ModelStack ModelSkip ModelInt Sim SimLib SimSkip SimInt Spec NumFacts MachineFacts.
Import ListNotations.
Local Open Scope Z_scope.

Definition decFrom (a : Z) (ds : bytes) : Z := fold_left (fun a c => 10 * a + (c - 48)) ds a.
Lemma decFrom_ge a ds : 0 <= a -> digits ds -> a <= decFrom a ds.
Proof.
  intros Ha H. revert a Ha. induction H as [|c ds Hc _ IH]; intros a Ha; [simpl; lia|].
  change (decFrom a (c :: ds)) with (decFrom (10 * a + (c - 48)) ds).
  unfold is_digit in Hc. specialize (IH (10 * a + (c - 48)) ltac:(lia)). lia.
Qed.
Lemma dec_cons d l : dec (d :: l) = decFrom (d - 48) l.
Proof. reflexivity. Qed.

Section Width.
Variables (w : Z) (nd : nat).
Hypothesis Hw : 1 <= w.
Hypothesis Hnd : 10 ^ Z.of_nat nd <= 2 ^ w.

Lemma uintLoop_eq n v f l : p_uintLoop w nd (n, v) f l =
  match l with
  | [] => if err_eqb_eof f then POk v [] else PErr f
  | c :: r =>
      if intDigits c =? invalidDigit then POk v l
      else if (nd <=? n)%nat && ((maxDiv10 w <? v) || ((v =? maxDiv10 w) && (maxMod10 w <? intDigits c)))
      then PErr EIntOverflow
      else p_uintLoop w nd (S n, mul10add w v (intDigits c)) f r
  end.
Proof.
  unfold p_uintLoop. destruct l as [|c l]; [reflexivity|]. rewrite p_scan_cons by apply presume_uint.
  unfold pb_uint at 1. split_ifs; reflexivity.
Qed.
Lemma mul10add_exact v d : 0 <= v -> 0 <= d -> 10 * v + d < 2 ^ w -> mul10add w v d = 10 * v + d.
Proof.
  intros Hv Hd Hl. unfold mul10add. rewrite !Z.shiftl_mul_pow2 by lia.
  change (2 ^ 3) with 8. change (2 ^ 1) with 2.
  rewrite (Z.mod_small (v * 8)), (Z.mod_small (v * 2)) by lia. rewrite Z.mod_small; lia.
Qed.
Lemma overflow_iff v d : 0 <= v -> 0 <= d <= 9 ->
  (maxDiv10 w <? v) || ((v =? maxDiv10 w) && (maxMod10 w <? d)) = (2 ^ w <=? 10 * v + d).
Proof.
  intros Hv Hd. unfold maxMod10, maxDiv10, maxUint.
  assert (0 < 2 ^ w) by (apply Z.pow_pos_nonneg; lia).
  pose proof (Z.div_mod (2 ^ w - 1) 10 ltac:(lia)). pose proof (Z.mod_pos_bound (2 ^ w - 1) 10 ltac:(lia)).
  set (q := (2 ^ w - 1) / 10) in *. set (m := (2 ^ w - 1) mod 10) in *. lia.
Qed.
Lemma uintLoop_run ds : digits ds -> forall n v f r, 0 <= v < 2 ^ w -> ((n < nd)%nat -> v < 10 ^ Z.of_nat n) ->
  match r with [] => f = EEOF | c :: _ => ~ is_digit c end ->
  p_uintLoop w nd (n, v) f (ds ++ r) =
    if 2 ^ w <=? decFrom v ds then PErr EIntOverflow else POk (decFrom v ds) r.
Proof.
  induction 1 as [|c ds Hc Hds IH]; intros n v f r Hv Hn Hr; simpl app; rewrite uintLoop_eq.
  - change (decFrom v []) with v. replace (2 ^ w <=? v) with false by lia. destruct r as [|c r]; [now subst|]. now rewrite intDigits_nodigit.
  - destruct (intDigits_digit _ Hc) as [Ed En]. rewrite En, Ed. unfold is_digit in Hc.
    change (decFrom v (c :: ds)) with (decFrom (10 * v + (c - 48)) ds).
    destruct (nd <=? n)%nat eqn:E1; cbn [andb].
    + rewrite overflow_iff by lia. destruct (2 ^ w <=? 10 * v + (c - 48)) eqn:E2.
      * assert (10 * v + (c - 48) <= decFrom (10 * v + (c - 48)) ds) by (apply decFrom_ge; auto; lia).
        replace (2 ^ w <=? decFrom (10 * v + (c - 48)) ds) with true by lia. reflexivity.
      * rewrite mul10add_exact by lia. apply Nat.leb_le in E1. apply IH; auto; [lia|]. intros. exfalso. lia.
    + assert (Hp : 10 * v + (c - 48) < 10 ^ Z.of_nat (S n)).
      { apply Nat.leb_gt in E1. specialize (Hn E1). rewrite Nat2Z.inj_succ, Z.pow_succ_r by lia. lia. }
      assert (10 ^ Z.of_nat (S n) <= 10 ^ Z.of_nat nd) by (apply Nat.leb_gt in E1; apply Z.pow_le_mono_r; lia).
      rewrite mul10add_exact by lia. apply IH; auto; lia.
Qed.
Lemma digits_split (l : bytes) : exists ds r, l = ds ++ r /\ digits ds /\ match r with [] => True | c :: _ => ~ is_digit c end.
Proof.
  induction l as [|c l (ds & r & -> & Hd & Hr)]; [exists [], []; repeat split; constructor|].
  destruct (is_digit_dec c).
  - exists (c :: ds), r. repeat split; auto. constructor; auto.
  - exists [], (c :: ds ++ r). repeat split; auto. constructor.
Qed.
Lemma uintLoop_noEOF ds : digits ds -> forall n v f, f <> EEOF -> forall a r', p_uintLoop w nd (n, v) f ds <> POk a r'.
Proof.
  induction 1 as [|c ds Hc Hds IH]; intros n v f Hf a r'; rewrite uintLoop_eq.
  - destruct f; try discriminate. congruence.
  - destruct (intDigits_digit _ Hc) as [Ed En]. rewrite En. destruct (_ && _); [discriminate|]. now apply IH.
Qed.
Hypothesis Hnd1 : (1 <= nd)%nat.
Lemma first_digit c : 49 <= c <= 57 -> ((1 < nd)%nat -> c - 48 < 10 ^ Z.of_nat 1) /\ 0 <= c - 48 < 2 ^ w.
Proof.
  intros H. assert (10 ^ 1 <= 10 ^ Z.of_nat nd) by (apply Z.pow_le_mono_r; lia).
  change (10 ^ 1) with 10 in *. change (10 ^ Z.of_nat 1) with 10. lia.
Qed.
Theorem readUintN_run c t r f : uint_token (c :: t) r f ->
  p_readUintN w nd c f (t ++ r) =
    if 2 ^ w <=? dec (c :: t) then PErr EIntOverflow else POk (dec (c :: t)) r.
Proof.
  intros [[= -> ->]|(d & l & [= <- <-] & Hd & Hl & Hr)]; unfold p_readUintN.
  - change (dec [48]) with 0. assert (0 < 2 ^ w) by (apply Z.pow_pos_nonneg; lia).
    replace (2 ^ w <=? 0) with false by lia. reflexivity.
  - destruct (intDigits_digit c) as [Ed En]; [unfold is_digit; lia|]. rewrite Ed.
    replace (c - 48 =? 0) with false by lia.
    replace (c - 48 =? invalidDigit) with false by (unfold invalidDigit; lia). rewrite dec_cons.
    destruct (first_digit c Hd). now apply uintLoop_run.
Qed.
Lemma readUintN_zero f l : p_readUintN w nd 48 f l = POk 0 l.
Proof. reflexivity. Qed.
Theorem readUintN_inv c f l v r : p_readUintN w nd c f l = POk v r ->
  exists t, uint_token (c :: t) r f /\ l = t ++ r /\ dec (c :: t) = v /\ 0 <= v < 2 ^ w.
Proof.
  intros H. assert (0 < 2 ^ w) by (apply Z.pow_pos_nonneg; lia).
  destruct (is_digit_dec c) as [Hc|Hc].
  - unfold is_digit in Hc. destruct (Z.eq_dec c 48) as [->|].
    + injection H as <- <-. exists []. repeat split; auto; try (change (dec [48]) with 0; lia). now left.
    + destruct (digits_split l) as (ds & r0 & -> & Hds & Hr0).
      assert (Hor : match r0 with [] => f = EEOF | c0 :: _ => ~ is_digit c0 end \/ (r0 = [] /\ f <> EEOF)).
      { destruct r0; [|left; exact Hr0]. destruct (err_eqb_eof f) eqn:Ef; [left; now apply eof_iff|]. right; split; auto. intros ->. discriminate. }
      destruct Hor as [Hr|[-> Hf]].
      * assert (Ht : uint_token (c :: ds) r0 f) by (right; exists c, ds; repeat split; auto; lia).
        rewrite (readUintN_run _ _ _ _ Ht) in H.
        destruct (2 ^ w <=? dec (c :: ds)) eqn:E; [discriminate|]. injection H as <- <-.
        exists ds. repeat split; auto; try lia. rewrite dec_cons.
        assert (c - 48 <= decFrom (c - 48) ds) by (apply decFrom_ge; auto; lia). lia.
      * exfalso. rewrite app_nil_r in H. revert H. unfold p_readUintN.
        destruct (intDigits_digit c Hc) as [-> _]. replace (c - 48 =? 0) with false by lia.
        replace (c - 48 =? invalidDigit) with false by (unfold invalidDigit; lia). now apply uintLoop_noEOF.
  - exfalso. revert H. unfold p_readUintN. rewrite (intDigits_nodigit _ Hc).
    pose proof (intDigits_nodigit _ Hc) as E. apply Z.eqb_eq in E. rewrite E. discriminate.
Qed.
Theorem readUintN_spec c f l v r : p_readUintN w nd c f l = POk v r <->
  exists t, uint_token (c :: t) r f /\ l = t ++ r /\ dec (c :: t) = v /\ 0 <= v < 2 ^ w.
Proof.
  split; [apply readUintN_inv|]. intros (t & Ht & -> & <- & Hv). rewrite (readUintN_run _ _ _ _ Ht).
  now replace (2 ^ w <=? dec (c :: t)) with false by lia.
Qed.
End Width.

Lemma token_first t r f : uint_token t r f -> exists c t', t = c :: t' /\ is_digit c.
Proof.
  intros [->|(d & l & -> & Hd & _)]; [exists 48, []|exists d, l]; unfold is_digit; split; auto; lia.
Qed.
Lemma token_nonneg t r f : uint_token t r f -> 0 <= dec t.
Proof.
  intros [->|(d & l & -> & Hd & Hl & _)]; [discriminate|]. rewrite dec_cons.
  assert (d - 48 <= decFrom (d - 48) l) by (apply decFrom_ge; auto; lia). lia.
Qed.

Lemma widths w : w = 16 \/ w = 32 \/ w = 64 -> exists nd,
  p_readU w = p_readUintN w nd /\ 1 <= w /\ 10 ^ Z.of_nat nd <= 2 ^ w /\ (1 <= nd)%nat.
Proof.
  intros [H|[H|H]]; subst w; [exists 4%nat|exists 9%nat|exists 19%nat]; repeat split; try lia; vm_compute; discriminate.
Qed.
Lemma readU_spec w c f l v r : w = 16 \/ w = 32 \/ w = 64 ->
  (p_readU w c f l = POk v r <->
   exists t, uint_token (c :: t) r f /\ l = t ++ r /\ dec (c :: t) = v /\ 0 <= v < 2 ^ w).
Proof. intros H. destruct (widths w H) as (nd & -> & ? & ? & ?). now apply readUintN_spec. Qed.
Lemma readU_overflow w c t r f : w = 16 \/ w = 32 \/ w = 64 -> uint_token (c :: t) r f -> 2 ^ w <= dec (c :: t) ->
  p_readU w c f (t ++ r) = PErr EIntOverflow.
Proof.
  intros H Ht Hd. destruct (widths w H) as (nd & -> & ? & ? & ?). rewrite readUintN_run by auto.
  now replace (2 ^ w <=? dec (c :: t)) with true by lia.
Qed.

Lemma take_digit w t r f c : ws w -> ~ is_ws c -> p_takeToken f (w ++ c :: t ++ r) = POk c (t ++ r).
Proof. intros. now apply takeToken_run. Qed.

(** unsigned *)
Theorem ReadU_spec w f l v r : w = 16 \/ w = 32 \/ w = 64 ->
  (p_ReadU w f l = POk v r <->
   exists s t, l = s ++ t ++ r /\ ws s /\ uint_token t r f /\ dec t = v /\ v < 2 ^ w).
Proof.
  intros Hw. unfold p_ReadU. split.
  - intros H. apply pbind_ok in H. destruct H as (c & l1 & E1 & H). apply takeToken_inv in E1.
    destruct E1 as (s & -> & Hs & _). apply readU_spec in H; auto. destruct H as (t & Ht & -> & Hd & Hv).
    exists s, (c :: t). repeat split; auto. lia.
  - intros (s & t & -> & Hs & Ht & Hd & Hv). destruct (token_first _ _ _ Ht) as (c & t' & -> & Hc).
    rewrite (pbind_run _ _ _ _ c (t' ++ r)).
    + apply readU_spec; auto. exists t'. repeat split; auto. rewrite <- Hd. eapply token_nonneg; eauto.
    + simpl app. apply takeToken_run; auto. unfold is_ws, is_digit in *. lia.
Qed.
Theorem ReadU_overflow w f s t r : w = 16 \/ w = 32 \/ w = 64 ->
  ws s -> uint_token t r f -> 2 ^ w <= dec t -> p_ReadU w f (s ++ t ++ r) = PErr EIntOverflow.
Proof.
  intros Hw Hs Ht Hd. destruct (token_first _ _ _ Ht) as (c & t' & -> & Hc). unfold p_ReadU.
  rewrite (pbind_run _ _ _ _ c (t' ++ r)); [now apply readU_overflow|].
  simpl app. apply takeToken_run; auto. unfold is_ws, is_digit in *. lia.
Qed.

(** signed *)
Lemma to_signed_small w v : 1 <= w -> - 2 ^ (w - 1) <= v < 2 ^ (w - 1) -> to_signed w v = v.
Proof.
  intros Hw Hv. unfold to_signed.
  assert (E : 2 ^ w = 2 * 2 ^ (w - 1)) by (rewrite <- Z.pow_succ_r by lia; f_equal; lia).
  set (h := 2 ^ (w - 1)) in *. rewrite E. destruct (Z.lt_ge_cases v 0).
  - replace (v mod (2 * h)) with (v + 2 * h).
    + replace (v + 2 * h <? h) with false by lia. lia.
    + rewrite <- (Z.mod_small (v + 2 * h) (2 * h)) by lia.
      rewrite <- (Z_mod_plus_full v 1 (2 * h)). f_equal. lia.
  - rewrite Z.mod_small by lia. now replace (v <? h) with true by lia.
Qed.
Lemma to_signed_min w : 1 <= w -> to_signed w (- to_signed w (2 ^ (w - 1))) = - 2 ^ (w - 1).
Proof.
  intros Hw. assert (E : 2 ^ w = 2 * 2 ^ (w - 1)) by (rewrite <- Z.pow_succ_r by lia; f_equal; lia).
  assert (0 < 2 ^ (w - 1)) by (apply Z.pow_pos_nonneg; lia).
  assert (E1 : to_signed w (2 ^ (w - 1)) = - 2 ^ (w - 1)).
  { unfold to_signed. rewrite E. rewrite Z.mod_small by lia. rewrite Z.ltb_irrefl. lia. }
  rewrite E1, Z.opp_involutive. exact E1.
Qed.
Lemma neg_exact w v : 1 <= w -> 0 <= v <= 2 ^ (w - 1) -> to_signed w (- to_signed w v) = - v.
Proof.
  intros Hw Hv. destruct (Z.eq_dec v (2 ^ (w - 1))) as [->|]; [now apply to_signed_min|].
  rewrite (to_signed_small w v) by lia. apply to_signed_small; lia.
Qed.
Theorem ReadI_spec w f l v r : w = 16 \/ w = 32 \/ w = 64 ->
  (p_ReadI w f l = POk v r <->
   exists s t, l = s ++ t ++ r /\ ws s /\ int_token t v r f /\ - 2 ^ (w - 1) <= v < 2 ^ (w - 1)).
Proof.
  intros Hw. assert (Hw1 : 1 <= w) by lia.
  assert (E : 2 ^ w = 2 * 2 ^ (w - 1)) by (rewrite <- Z.pow_succ_r by lia; f_equal; lia).
  assert (H0 : 0 < 2 ^ (w - 1)) by (apply Z.pow_pos_nonneg; lia).
  unfold p_ReadI, p_readIntN, maxInt. split.
  - intros H. apply pbind_ok in H. destruct H as (c & l1 & E1 & H). apply takeToken_inv in E1.
    destruct E1 as (s & -> & Hs & _). destruct (Z.eqb_spec c cMINUS) as [->|Hm].
    + apply pbind_ok in H. destruct H as (c' & l2 & E2 & H). destruct l1 as [|c1 l1]; [discriminate|].
      injection E2 as <- <-. unfold p_inc in H. apply pbind_ok in H. destruct H as ([] & l3 & [= <-] & H).
      apply pbind_ok in H. destruct H as (u & l4 & E4 & H). apply readU_spec in E4; auto. cbn [tl] in E4.
      destruct E4 as (t & Ht & -> & Hd & Hu). destruct (_ <? u) eqn:E5; [discriminate|]. injection H as <- <-.
      exists s, (45 :: c1 :: t). rewrite neg_exact by lia. split; auto. split; auto. split; [|lia].
      rewrite <- Hd. now constructor.
    + apply pbind_ok in H. destruct H as (u & l4 & E4 & H). apply readU_spec in E4; auto.
      destruct E4 as (t & Ht & -> & Hd & Hu). destruct (_ <? u) eqn:E5; [discriminate|]. injection H as <- <-.
      exists s, (c :: t). rewrite to_signed_small by lia. split; auto. split; auto. split; [|lia].
      rewrite <- Hd. now constructor.
  - intros (s & t & -> & Hs & Ht & Hv). inversion Ht as [ds ? ? Hu|ds ? ? Hu]; subst.
    + destruct (token_first _ _ _ Hu) as (c & t' & -> & Hc). simpl app.
      assert (Hn := token_nonneg _ _ _ Hu).
      erewrite pbind_run by (apply takeToken_run; auto; unfold is_ws, is_digit in *; lia).
      replace (c =? cMINUS) with false by (unfold is_digit in *; lia).
      rewrite (pbind_run _ _ _ _ (dec (c :: t')) r) by (apply readU_spec; auto; exists t'; repeat split; auto; lia).
      replace (2 ^ (w - 1) - 1 <? dec (c :: t')) with false by lia. rewrite to_signed_small by lia. reflexivity.
    + destruct (token_first _ _ _ Hu) as (c & t' & -> & Hc). simpl app.
      assert (Hn := token_nonneg _ _ _ Hu).
      erewrite pbind_run by (apply takeToken_run; auto; unfold is_ws, is_digit in *; lia).
      rewrite Z.eqb_refl. unfold p_peek, p_inc. rewrite (pbind_run _ _ _ _ c (c :: t' ++ r)) by reflexivity.
      rewrite (pbind_run _ _ _ _ tt (t' ++ r)) by reflexivity.
      rewrite (pbind_run _ _ _ _ (dec (c :: t')) r) by (apply readU_spec; auto; exists t'; repeat split; auto; lia).
      replace (2 ^ (w - 1) - 1 + 1 <? dec (c :: t')) with false by lia. rewrite neg_exact by lia. reflexivity.
Qed.
Theorem ReadI_overflow w f s t v r : w = 16 \/ w = 32 \/ w = 64 ->
  ws s -> int_token t v r f -> v < - 2 ^ (w - 1) \/ 2 ^ (w - 1) <= v ->
  p_ReadI w f (s ++ t ++ r) = PErr EIntOverflow.
Proof.
  intros Hw Hs Ht Hv. assert (Hw1 : 1 <= w) by lia.
  assert (H0 : 0 < 2 ^ (w - 1)) by (apply Z.pow_pos_nonneg; lia).
  unfold p_ReadI, p_readIntN, maxInt. inversion Ht as [ds ? ? Hu|ds ? ? Hu]; subst.
  - destruct (token_first _ _ _ Hu) as (c & t' & -> & Hc). simpl app.
    assert (Hn := token_nonneg _ _ _ Hu).
    erewrite pbind_run by (apply takeToken_run; auto; unfold is_ws, is_digit in *; lia).
    replace (c =? cMINUS) with false by (unfold is_digit in *; lia).
    destruct (Z.lt_ge_cases (dec (c :: t')) (2 ^ w)).
    + rewrite (pbind_run _ _ _ _ (dec (c :: t')) r) by (apply readU_spec; auto; exists t'; repeat split; auto; lia).
      now replace (2 ^ (w - 1) - 1 <? dec (c :: t')) with true by lia.
    + unfold pbind. rewrite readU_overflow; auto.
  - destruct (token_first _ _ _ Hu) as (c & t' & -> & Hc). simpl app.
    assert (Hn := token_nonneg _ _ _ Hu).
    erewrite pbind_run by (apply takeToken_run; auto; unfold is_ws, is_digit in *; lia).
    rewrite Z.eqb_refl. unfold p_peek, p_inc. rewrite (pbind_run _ _ _ _ c (c :: t' ++ r)) by reflexivity.
    rewrite (pbind_run _ _ _ _ tt (t' ++ r)) by reflexivity.
    destruct (Z.lt_ge_cases (dec (c :: t')) (2 ^ w)).
    + rewrite (pbind_run _ _ _ _ (dec (c :: t')) r) by (apply readU_spec; auto; exists t'; repeat split; auto; lia).
      now replace (2 ^ (w - 1) - 1 + 1 <? dec (c :: t')) with true by lia.
    + unfold pbind. rewrite readU_overflow; auto.
Qed.


(** ** Width 8: at most three digits are looked at *)
Definition cut_token (t r : bytes) (f : err) : Prop :=
  (uint_token t r f /\ (length t <= 2)%nat) \/
  (exists a b c, t = [a; b; c] /\ 49 <= a <= 57 /\ is_digit b /\ is_digit c).
Lemma cut_first t r f : cut_token t r f -> exists c t', t = c :: t' /\ is_digit c.
Proof.
  intros [[H _]|(a & b & c & -> & H)]; [eapply token_first; eauto|]. exists a, [b; c]. unfold is_digit. split; auto. lia.
Qed.
Lemma cut_nonneg t r f : cut_token t r f -> 0 <= dec t.
Proof.
  intros [[H _]|(a & b & c & -> & H)]; [eapply token_nonneg; eauto|]. cbv [dec fold_left]. unfold is_digit in *. lia.
Qed.
Lemma token_cut t r f : uint_token t r f -> (length t <= 3)%nat -> cut_token t r f.
Proof.
  intros Ht Hl. destruct Ht as [->|(d & l & -> & Hd & Hl' & Hr)].
  - left. split; [now left|simpl; lia].
  - destruct l as [|a [|b [|c l]]]; simpl in Hl; try lia.
    + left. split; [|simpl; lia]. right. exists d, []. auto.
    + left. split; [|simpl; lia]. right. exists d, [a]. auto.
    + right. inversion Hl' as [|? ? Ha Hb]; subst. inversion Hb; subst. exists d, a, b. auto.
Qed.
Lemma peekEOF_run f c l : p_peekOrEOF f (c :: l) = POk (Some c) (c :: l).
Proof. reflexivity. Qed.
Lemma peekEOF_end f : p_peekOrEOF f [] = if err_eqb_eof f then POk None [] else PErr f.
Proof. reflexivity. Qed.
Lemma m8 a b : 0 <= a -> 0 <= b -> 10 * a + b < 256 -> mul10add 8 a b = 10 * a + b.
Proof. intros. apply mul10add_exact; auto; [exact 0%nat|lia]. Qed.
Ltac tok c l := right; exists c, l; split; [reflexivity|]; split; [lia|]; split;
  [unfold digits; repeat apply Forall_cons; try apply Forall_nil; unfold is_digit; lia|first [reflexivity|assumption]].
Lemma POk_inj {A} (a b : A) r s : POk a r = POk b s -> a = b /\ r = s.
Proof. intros [= -> ->]. auto. Qed.
Lemma readUint8_spec c f l v r : p_readUint8 c f l = POk v r <->
  exists t, cut_token (c :: t) r f /\ l = t ++ r /\ dec (c :: t) = v /\ 0 <= v < 256.
Proof.
  unfold p_readUint8. destruct (is_digit_dec c) as [Hc|Hc].
  2:{ rewrite (intDigits_nodigit _ Hc). pose proof (intDigits_nodigit _ Hc) as E. apply Z.eqb_eq in E. rewrite E.
      split; [discriminate|]. intros (t & Ht & _). destruct (cut_first _ _ _ Ht) as (? & ? & [= <- <-] & ?). tauto. }
  destruct (intDigits_digit _ Hc) as [Ed En]. rewrite En, Ed. unfold is_digit in Hc.
  destruct (Z.eqb_spec (c - 48) 0) as [E0|E0].
  { assert (c = 48) as -> by lia. unfold pret. split.
    - intros [= <- <-]. exists []. split; [left; split; [now left|simpl; lia]|]. repeat split; auto. discriminate.
    - intros (t & [[[[= ->]|(d & l' & [= <- <-] & ? & _)] _]|(a & b & c' & [= <- _] & ? & _)] & -> & <- & _); try lia. reflexivity. }
  assert (Hc1 : 49 <= c <= 57) by lia. clear E0 Hc.
  unfold pbind at 1. destruct l as [|c2 l].
  { rewrite peekEOF_end. destruct (err_eqb_eof f) eqn:Ef.
    - apply eof_iff in Ef. subst f. unfold pret. split.
      + intros [= <- <-]. exists []. split; [left; split; [tok c (@nil Z)|simpl; lia]|].
        repeat split; auto; change (dec [c]) with (10 * 0 + (c - 48)); lia.
      + intros (t & _ & El & Hd & _). symmetry in El. apply app_eq_nil in El. destruct El as [-> ->].
        change (dec [c]) with (10 * 0 + (c - 48)) in Hd. f_equal. lia.
    - split; [discriminate|]. intros (t & Ht & El & _). symmetry in El. apply app_eq_nil in El. destruct El as [-> ->].
      destruct Ht as [[[[= ->]|(d & l' & [= <- <-] & _ & _ & ->)] _]|(a & b & c' & [= ] & _)]; [lia|discriminate]. }
  rewrite peekEOF_run. destruct (is_digit_dec c2) as [H2|H2].
  2:{ rewrite (intDigits_nodigit _ H2). unfold pret. split.
      - intros [= <- <-]. exists []. split; [left; split; [tok c (@nil Z)|simpl; lia]|].
        repeat split; auto; change (dec [c]) with (10 * 0 + (c - 48)); lia.
      - intros (t & Ht & El & Hd & _). destruct t as [|x t].
        + simpl in El. subst r. change (dec [c]) with (10 * 0 + (c - 48)) in Hd. f_equal. lia.
        + injection El as <- _. exfalso.
          destruct Ht as [[[[= -> ]|(d & l' & [= <- <-] & _ & Hl & _)] _]|(a & b & c' & [= _ <- _] & _ & ? & _)]; auto.
          inversion Hl; auto. }
  destruct (intDigits_digit _ H2) as [Ed2 En2]. rewrite En2, Ed2. unfold is_digit in H2. rewrite m8 by lia.
  unfold pbind at 1, p_inc at 1. cbn [tl]. unfold pbind at 1.
  assert (D2 : dec [c; c2] = 10 * (c - 48) + (c2 - 48)).
  { unfold dec. cbv [fold_left]. lia. }
  destruct l as [|c3 l].
  { rewrite peekEOF_end. destruct (err_eqb_eof f) eqn:Ef.
    - apply eof_iff in Ef. subst f. unfold pret. split.
      + intros E. apply POk_inj in E. destruct E as [<- <-]. exists [c2].
        split; [left; split; [tok c [c2]|simpl; lia]|].
        repeat split; auto; lia.
      + intros (t & Ht & El & Hd & _). destruct t as [|x [|y t]].
        * simpl in El. subst r. exfalso.
          destruct Ht as [[[[= -> ]|(d & l' & [= <- <-] & _ & Hl & Hn)] _]|(a & b & c' & [= ] & _)]; [lia|]. apply Hn. exact H2.
        * injection El as -> <-. f_equal. congruence.
        * discriminate.
    - split; [discriminate|]. intros (t & Ht & El & _). exfalso. destruct t as [|x [|y t]].
      * simpl in El. subst r.
        destruct Ht as [[[[= -> ]|(d & l' & [= <- <-] & _ & Hl & Hn)] _]|(a & b & c' & [= ] & _)]; [lia|]. apply Hn. exact H2.
      * injection El as -> <-.
        destruct Ht as [[[[= ]|(d & l' & [= <- <-] & _ & Hl & ->)] _]|(a & b & c' & [= ] & _)]. discriminate.
      * discriminate. }
  rewrite peekEOF_run. destruct (is_digit_dec c3) as [H3|H3].
  2:{ rewrite (intDigits_nodigit _ H3). unfold pret. split.
      - intros E. apply POk_inj in E. destruct E as [<- <-]. exists [c2].
        split; [left; split; [tok c [c2]|simpl; lia]|].
        repeat split; auto; lia.
      - intros (t & Ht & El & Hd & _). destruct t as [|x [|y t]].
        + simpl in El. subst r. exfalso.
          destruct Ht as [[[[= -> ]|(d & l' & [= <- <-] & _ & Hl & Hn)] _]|(a & b & c' & [= ] & _)]; [lia|]. apply Hn. exact H2.
        + injection El as -> <-. f_equal. congruence.
        + injection El as -> -> _. exfalso.
          destruct Ht as [[[[= ]|(d & l' & [= <- <-] & _ & Hl & _)] _]|(a & b & c' & [= _ _ <- _] & _ & _ & ?)]; auto.
          inversion Hl as [|? ? _ Hl2]; subst. inversion Hl2; auto. }
  destruct (intDigits_digit _ H3) as [Ed3 En3]. rewrite En3, Ed3. unfold is_digit in H3.
  unfold pbind at 1, p_inc at 1. cbn [tl]. rewrite (overflow_iff 8 0%nat ltac:(lia)) by lia.
  assert (D3 : dec [c; c2; c3] = 10 * (10 * (c - 48) + (c2 - 48)) + (c3 - 48)).
  { unfold dec. cbv [fold_left]. lia. }
  change (2 ^ 8) with 256. rewrite <- D3.
  assert (T3 : cut_token [c; c2; c3] l f) by (right; exists c, c2, c3; auto).
  assert (Only : forall t, cut_token (c :: t) r f -> c2 :: c3 :: l = t ++ r -> t = [c2; c3] /\ r = l).
  { intros t Ht El. destruct t as [|x [|y t]].
    - simpl in El. subst r. exfalso.
      destruct Ht as [[[[= -> ]|(d & l' & [= <- <-] & _ & Hl & Hn)] _]|(a & b & c' & [= ] & _)]; [lia|]. apply Hn. exact H2.
    - injection El as -> <-. exfalso.
      destruct Ht as [[[[= ]|(d & l' & [= <- <-] & _ & Hl & Hn)] _]|(a & b & c' & [= ] & _)]. apply Hn. exact H3.
    - injection El as -> -> ->.
      destruct Ht as [[_ Hl]|(a & b & c' & [= _ _ _ ->] & _)]; [simpl in Hl; lia|]. auto. }
  destruct (256 <=? dec [c; c2; c3]) eqn:E.
  - split; [discriminate|]. intros (t & Ht & El & Hd & Hv). destruct (Only t Ht El) as [-> ->]. lia.
  - rewrite m8 by lia. rewrite <- D3. unfold pret. split.
    + intros [= <- <-]. exists [c2; c3]. repeat split; auto; lia.
    + intros (t & Ht & El & Hd & Hv). destruct (Only t Ht El) as [-> ->]. now subst.
Qed.
Theorem ReadU8_spec f l v r : p_ReadU 8 f l = POk v r <->
  exists s t, l = s ++ t ++ r /\ ws s /\ cut_token t r f /\ dec t = v /\ v < 256.
Proof.
  unfold p_ReadU. change (p_readU 8) with p_readUint8. split.
  - intros H. apply pbind_ok in H. destruct H as (c & l1 & E1 & H). apply takeToken_inv in E1.
    destruct E1 as (s & -> & Hs & _). apply readUint8_spec in H. destruct H as (t & Ht & -> & Hd & Hv).
    exists s, (c :: t). repeat split; auto. lia.
  - intros (s & t & -> & Hs & Ht & Hd & Hv). destruct (cut_first _ _ _ Ht) as (c & t' & -> & Hc).
    rewrite (pbind_run _ _ _ _ c (t' ++ r)).
    + apply readUint8_spec; auto. exists t'. repeat split; auto. rewrite <- Hd. eapply cut_nonneg; eauto.
    + simpl app. apply takeToken_run; auto. unfold is_ws, is_digit in *. lia.
Qed.
Inductive cut_int : bytes -> Z -> bytes -> err -> Prop :=
| ci_pos ds rest f : cut_token ds rest f -> cut_int ds (dec ds) rest f
| ci_neg ds rest f : cut_token ds rest f -> cut_int (45 :: ds) (- dec ds) rest f.
Theorem ReadI8_spec f l v r : p_ReadI 8 f l = POk v r <->
  exists s t, l = s ++ t ++ r /\ ws s /\ cut_int t v r f /\ -128 <= v < 128.
Proof.
  unfold p_ReadI, p_readIntN, maxInt. change (p_readU 8) with p_readUint8. change (2 ^ (8 - 1)) with 128. split.
  - intros H. apply pbind_ok in H. destruct H as (c & l1 & E1 & H). apply takeToken_inv in E1.
    destruct E1 as (s & -> & Hs & _). destruct (Z.eqb_spec c cMINUS) as [->|Hm].
    + apply pbind_ok in H. destruct H as (c' & l2 & E2 & H). destruct l1 as [|c1 l1]; [discriminate|].
      injection E2 as <- <-. unfold p_inc in H. apply pbind_ok in H. destruct H as ([] & l3 & [= <-] & H).
      apply pbind_ok in H. destruct H as (u & l4 & E4 & H). apply readUint8_spec in E4; auto. cbn [tl] in E4.
      destruct E4 as (t & Ht & -> & Hd & Hu). destruct (_ <? u) eqn:E5; [discriminate|]. injection H as <- <-.
      exists s, (45 :: c1 :: t). rewrite neg_exact by (change (2 ^ (8 - 1)) with 128; lia).
      split; auto. split; auto. split; [|lia]. rewrite <- Hd. now constructor.
    + apply pbind_ok in H. destruct H as (u & l4 & E4 & H). apply readUint8_spec in E4; auto.
      destruct E4 as (t & Ht & -> & Hd & Hu). destruct (_ <? u) eqn:E5; [discriminate|]. injection H as <- <-.
      exists s, (c :: t). rewrite to_signed_small by (change (2 ^ (8 - 1)) with 128; lia).
      split; auto. split; auto. split; [|lia]. rewrite <- Hd. now constructor.
  - intros (s & t & -> & Hs & Ht & Hv). inversion Ht as [ds ? ? Hu|ds ? ? Hu]; subst.
    + destruct (cut_first _ _ _ Hu) as (c & t' & -> & Hc). simpl app.
      assert (Hn := cut_nonneg _ _ _ Hu).
      erewrite pbind_run by (apply takeToken_run; auto; unfold is_ws, is_digit in *; lia).
      replace (c =? cMINUS) with false by (unfold is_digit in *; lia).
      rewrite (pbind_run _ _ _ _ (dec (c :: t')) r) by (apply readUint8_spec; auto; exists t'; repeat split; auto; lia).
      replace (128 - 1 <? dec (c :: t')) with false by lia.
      rewrite to_signed_small by (change (2 ^ (8 - 1)) with 128; lia). reflexivity.
    + destruct (cut_first _ _ _ Hu) as (c & t' & -> & Hc). simpl app.
      assert (Hn := cut_nonneg _ _ _ Hu).
      erewrite pbind_run by (apply takeToken_run; auto; unfold is_ws, is_digit in *; lia).
      rewrite Z.eqb_refl. unfold p_peek, p_inc. rewrite (pbind_run _ _ _ _ c (c :: t' ++ r)) by reflexivity.
      rewrite (pbind_run _ _ _ _ tt (t' ++ r)) by reflexivity.
      rewrite (pbind_run _ _ _ _ (dec (c :: t')) r) by (apply readUint8_spec; auto; exists t'; repeat split; auto; lia).
      replace (128 - 1 + 1 <? dec (c :: t')) with false by lia.
      rewrite neg_exact by (change (2 ^ (8 - 1)) with 128; lia). reflexivity.
Qed.
