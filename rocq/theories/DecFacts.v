(** Typed decoding against its specification. *)
From Coq Require Import String ZArith List Bool Lia Arith.
From Verif Require Import Base ModelIter ModelStack ModelSkip ModelStr ModelInt ModelFloat ModelRead ModelIterate ModelOps
  ModelFold ModelBase64 Spec Sim SimLib SimSkip SimRaw SimStr SimInt SimFloat SimRead SimIterate SimOps
  NumFacts StrFacts MachineFacts FloatFacts GrammarFacts IntFacts IterateFacts IterFacts SpecBase64 Base64Facts
  ModelVal SimVal SpecVal.
Import ListNotations.
Local Open Scope Z_scope.

(** ** Texts *)
Lemma int_part_first t : int_part t -> exists c t', t = c :: t' /\ is_digit c.
Proof. intros [|d l H _]; [exists 48, []|exists d, l]; split; auto; unfold is_digit; lia. Qed.
Lemma int_text_first s t z : int_text s t z -> exists c t', t = c :: t' /\ (c = 45 \/ is_digit c).
Proof.
  intros [s' t' H|t' H]; [|eauto]. destruct (int_part_first _ H) as (c & t'' & -> & Hc). eauto.
Qed.
Lemma token_int_part t r f : uint_token t r f -> int_part t.
Proof. intros [->|(d & l & -> & Hd & Hl & _)]; [apply ip_zero|now apply ip_pos]. Qed.
Lemma cut_int_part t r f : cut_token t r f -> int_part t.
Proof.
  intros [[H _]|(a & b & c & -> & Ha & Hb & Hc)]; [eapply token_int_part; eauto|].
  apply ip_pos; auto. repeat apply Forall_cons; auto.
Qed.
Lemma int_part_number t : int_part t -> number t.
Proof.
  intros H. apply num_pos. rewrite <- (app_nil_r t). change (t ++ []) with (t ++ [] ++ []). constructor; auto; constructor.
Qed.
Lemma int_text_number s t z : int_text s t z -> number t.
Proof.
  intros [s' t' H|t' H]; [now apply int_part_number|]. apply num_neg.
  rewrite <- (app_nil_r t'). change (t' ++ []) with (t' ++ [] ++ []). constructor; auto; constructor.
Qed.
(** the digits that follow an integer would continue it, except after a zero *)
Lemma ends_token t f r : int_part t -> num_ends t f r -> uint_token t r f.
Proof.
  intros H [He Hf]. destruct H as [|d l Hd Hl]; [now left|]. right. exists d, l. repeat split; try lia; auto.
  destruct r as [|c r]; auto. intros Hc. apply (He c r [] eq_refl). apply num_pos.
  replace ((d :: l) ++ [c]) with ((d :: (l ++ [c])) ++ [] ++ []) by (simpl; now rewrite app_nil_r).
  apply un; [|apply fp_none|apply ep_none]. apply ip_pos; auto. apply Forall_app. split; auto.
Qed.
Lemma ends_token_neg t f r : int_part t -> num_ends (45 :: t) f r -> uint_token t r f.
Proof.
  intros H [He Hf]. destruct H as [|d l Hd Hl]; [now left|]. right. exists d, l. repeat split; try lia; auto.
  destruct r as [|c r]; auto. intros Hc. apply (He c r [] eq_refl). apply num_neg.
  change (unsigned_number (d :: (l ++ [c]))). replace (d :: (l ++ [c])) with ((d :: (l ++ [c])) ++ [] ++ []) by (simpl; now rewrite app_nil_r).
  apply un; [|apply fp_none|apply ep_none]. apply ip_pos; auto. apply Forall_app. split; auto.
Qed.

(** ** Integers *)
Lemma intOf_take s w f c l : ~ is_ws c ->
  p_readIntOf s w c f l = (if s then p_ReadI (wbits w) else p_ReadU (wbits w)) f (c :: l).
Proof.
  intros Hc. unfold p_readIntOf. destruct s; unfold p_ReadI, p_ReadU; rewrite (pbind_run _ _ _ _ c l); auto;
    exact (takeToken_run f [] c l ws_nil Hc).
Qed.
Lemma intOf_ws s w f c l v r : p_readIntOf s w c f l = POk v r -> c = 45 \/ is_digit c.
Proof.
  destruct (Z.eq_dec c 45); auto. intros H. right. destruct (is_digit_dec c) as [|Hn]; auto. exfalso.
  assert (K : forall w f l v r, p_readU w c f l <> POk v r).
  { clear - Hn. intros w f l v r H. unfold p_readU in H. apply intDigits_nodigit in Hn.
    assert (N := Hn). apply Z.eqb_eq in Hn.
    assert (Z0 : (intDigits c =? 0) = false) by (rewrite Hn; reflexivity).
    destruct (w =? 8); [unfold p_readUint8 in H; rewrite Z0, N in H; discriminate|].
    destruct (w =? 16); [|destruct (w =? 32)]; unfold p_readUintN in H; rewrite Z0, N in H; discriminate. }
  unfold p_readIntOf in H. destruct s; [|now apply K in H]. unfold p_readIntN in H.
  destruct (Z.eqb_spec c cMINUS); [congruence|]. apply pbind_ok in H. destruct H as (v' & l' & H & _). now apply K in H.
Qed.
Lemma wbits_bits w : wbits w = bits w.
Proof. reflexivity. Qed.
Lemma digit_nows c : c = 45 \/ is_digit c -> ~ is_ws c.
Proof. unfold is_digit, is_ws. lia. Qed.
Lemma app_ws_cons s t r c l : c :: l = s ++ t ++ r -> ws s -> ~ is_ws c -> s = [] /\ c :: l = t ++ r.
Proof.
  intros H Hs Hc. destruct s as [|x s]; [auto|]. simpl in H. injection H as <- _. inversion Hs; subst. tauto.
Qed.
Theorem intOf_sound s w c f l v r : p_readIntOf s w c f l = POk v r ->
  exists t, l = t ++ r /\ int_text s (c :: t) v /\ in_range s w v.
Proof.
  intros H. assert (Hd := intOf_ws _ _ _ _ _ _ _ H). assert (Hc := digit_nows c Hd).
  rewrite intOf_take in H by auto.
  assert (G : exists t, c :: l = t ++ r /\ t <> [] /\ int_text s t v /\ in_range s w v).
  { destruct s.
    - assert (Hw : wbits w = 8 \/ wbits w = 16 \/ wbits w = 32 \/ wbits w = 64) by (destruct w; auto). destruct Hw as [Hw|Hw].
      + rewrite Hw in H. apply ReadI8_spec in H. destruct H as (s0 & t & E & Hs & Ht & Hv).
        destruct (app_ws_cons _ _ _ _ _ E Hs Hc) as [-> E']. exists t. split; auto.
        assert (K : int_text true t v).
        { destruct Ht; constructor; eapply cut_int_part; eauto. }
        split; [|split; auto].
        * intros ->. destruct (int_text_first _ _ _ K) as (? & ? & ? & _). discriminate.
        * unfold in_range. rewrite <- wbits_bits, Hw. exact Hv.
      + apply ReadI_spec in H; auto. destruct H as (s0 & t & E & Hs & Ht & Hv).
        destruct (app_ws_cons _ _ _ _ _ E Hs Hc) as [-> E']. exists t. split; auto.
        assert (K : int_text true t v).
        { destruct Ht; constructor; eapply token_int_part; eauto. }
        split; [|split; auto]. intros ->. destruct (int_text_first _ _ _ K) as (? & ? & ? & _). discriminate.
    - assert (Hw : wbits w = 8 \/ wbits w = 16 \/ wbits w = 32 \/ wbits w = 64) by (destruct w; auto). destruct Hw as [Hw|Hw].
      + rewrite Hw in H. apply ReadU8_spec in H. destruct H as (s0 & t & E & Hs & Ht & <- & Hv).
        destruct (app_ws_cons _ _ _ _ _ E Hs Hc) as [-> E']. exists t. split; auto.
        assert (K : int_text false t (dec t)) by (constructor; eapply cut_int_part; eauto).
        split; [|split; auto].
        * intros ->. destruct (int_text_first _ _ _ K) as (? & ? & ? & _). discriminate.
        * unfold in_range. rewrite <- wbits_bits, Hw. split; [eapply cut_nonneg; eauto|exact Hv].
      + apply ReadU_spec in H; auto. destruct H as (s0 & t & E & Hs & Ht & <- & Hv).
        destruct (app_ws_cons _ _ _ _ _ E Hs Hc) as [-> E']. exists t. split; auto.
        assert (K : int_text false t (dec t)) by (constructor; eapply token_int_part; eauto).
        split; [|split; auto].
        * intros ->. destruct (int_text_first _ _ _ K) as (? & ? & ? & _). discriminate.
        * unfold in_range. rewrite <- wbits_bits. split; [eapply token_nonneg; eauto|exact Hv]. }
  destruct G as (t & E & Hn & Ht & Hr). destruct t as [|x t]; [congruence|]. injection E as -> ->. exists t. auto.
Qed.
(** a number below 256 has at most three digits *)
Lemma dec_length t : int_part t -> dec t < 256 -> (length t <= 3)%nat.
Proof.
  intros [|d l Hd Hl] Hv; [simpl; lia|]. destruct l as [|a [|b [|c l]]]; simpl; try lia. exfalso.
  rewrite dec_cons in Hv. change (decFrom (d - 48) (a :: b :: c :: l)) with
    (decFrom (10 * (10 * (10 * (d - 48) + (a - 48)) + (b - 48)) + (c - 48)) l) in Hv.
  inversion Hl as [|? ? Ha Hl2]; subst. inversion Hl2 as [|? ? Hb Hl3]; subst. inversion Hl3 as [|? ? Hcc Hl4]; subst.
  unfold is_digit in *.
  assert (K := decFrom_ge (10 * (10 * (10 * (d - 48) + (a - 48)) + (b - 48)) + (c - 48)) l ltac:(lia) Hl4). lia.
Qed.
Theorem intOf_complete s w c t f r v : int_text s (c :: t) v -> in_range s w v -> num_ends (c :: t) f r ->
  p_readIntOf s w c f (t ++ r) = POk v r.
Proof.
  intros Ht Hv He. destruct (int_text_first _ _ _ Ht) as (c0 & t0 & [= <- <-] & Hd). assert (Hc := digit_nows c Hd).
  rewrite intOf_take by auto. change (c :: t ++ r) with ([] ++ (c :: t) ++ r).
  assert (Hw : wbits w = 8 \/ wbits w = 16 \/ wbits w = 32 \/ wbits w = 64) by (destruct w; auto).
  unfold in_range in Hv. rewrite <- wbits_bits in Hv.
  remember (c :: t) as u eqn:Eu. destruct Ht as [s u Hi|u Hi].
  - assert (Htok := ends_token _ _ _ Hi He). destruct s; destruct Hw as [Hw|Hw].
    + rewrite Hw in *. apply ReadI8_spec. exists [], u. split; auto. split; [apply ws_nil|]. split; [|exact Hv].
      constructor. apply token_cut; auto. apply dec_length; auto. change (2 ^ (8 - 1)) with 128 in Hv. lia.
    + apply ReadI_spec; auto. exists [], u. split; auto. split; [apply ws_nil|]. split; [|exact Hv]. now constructor.
    + rewrite Hw in *. apply ReadU8_spec. exists [], u. split; auto. split; [apply ws_nil|].
      change (2 ^ 8) with 256 in Hv. split; [|lia]. apply token_cut; auto. apply dec_length; auto. lia.
    + apply ReadU_spec; auto. exists [], u. split; auto. split; [apply ws_nil|]. split; [auto|lia].
  - assert (Htok := ends_token_neg _ _ _ Hi He). destruct Hw as [Hw|Hw].
    + rewrite Hw in *. apply ReadI8_spec. exists [], (45 :: u). split; auto. split; [apply ws_nil|]. split; [|exact Hv].
      constructor. apply token_cut; auto. apply dec_length; auto. change (2 ^ (8 - 1)) with 128 in Hv. lia.
    + apply ReadI_spec; auto. exists [], (45 :: u). split; auto. split; [apply ws_nil|]. split; [|exact Hv]. now constructor.
Qed.
