(** What decoders take from the front of a text: the relations of SpecPart against the pure decoders. *)
From Coq Require Import String ZArith List Bool Lia Arith.
From Verif Require Import Base ModelIter ModelStack ModelSkip ModelStr ModelInt ModelFloat ModelRead ModelIterate ModelOps
  ModelFold ModelBase64 Spec Sim SimLib SimSkip SimRaw SimStr SimInt SimFloat SimRead SimIterate SimOps
  NumFacts StrFacts MachineFacts FloatFacts GrammarFacts IntFacts IterateFacts IterFacts SpecBase64 Base64Facts
  FoldFacts ModelVal SimVal SpecVal DecFacts DecSound DecComplete DecMono ModelPart SpecPart.
Import ListNotations.
Local Open Scope Z_scope.

(** ** Integers *)
Lemma token_int_ends w t r f : uint_token t r f -> int_ends f w t r.
Proof. intros [->|(d & l & -> & _ & _ & H)]; [now left|]. right; right; right. exact H. Qed.
Lemma token_int_ends_neg w t r f : uint_token t r f -> int_ends f w (45 :: t) r.
Proof. intros [->|(d & l & -> & _ & _ & H)]; [right; now left|]. right; right; right. exact H. Qed.
Lemma cut_int_ends t r f : cut_token t r f -> int_ends f W8 t r.
Proof.
  intros [[H _]|(a & b & c & -> & Ha & Hb & Hc)]; [now apply token_int_ends|]. right; right; left. split; auto.
  destruct (Z.eq_dec a 45) as [->|Hn]; [lia|]. assert (K : forall x : bytes, match a with 45 => x | _ => [a; b; c] end = [a; b; c]).
  { intros x. destruct a as [|p|p]; auto. do 6 (destruct p as [p|p|]; auto). lia. }
  now rewrite K.
Qed.
Lemma cut_int_ends_neg t r f : cut_token t r f -> int_ends f W8 (45 :: t) r.
Proof.
  intros [[H _]|(a & b & c & -> & Ha & Hb & Hc)]; [now apply token_int_ends_neg|]. right; right; left. auto.
Qed.
Lemma part_strip t : int_part t -> match t with 45 :: t' => t' | _ => t end = t.
Proof.
  intros H. destruct (int_part_first _ H) as (c & t' & -> & Hc). unfold is_digit in Hc.
  destruct c as [|p|p]; auto. do 6 (destruct p as [p|p|]; auto). lia.
Qed.
Lemma int_ends_token w t r f : int_part t -> int_ends f w t r \/ int_ends f w (45 :: t) r ->
  uint_token t r f \/ (w = W8 /\ length t = 3%nat).
Proof.
  intros Hi [[->|[->|[[Hw Hl]|H]]]|[E|[E|[[Hw Hl]|H]]]]; try discriminate.
  - left. now left.
  - exfalso. inversion Hi; lia.
  - right. rewrite part_strip in Hl by auto. auto.
  - left. inversion Hi; subst; [now left|]. right. eauto 6.
  - injection E as ->. left. now left.
  - right. auto.
  - left. inversion Hi; subst; [now left|]. right. eauto 6.
Qed.
Lemma int_ends_cut t r f : int_part t -> (length t <= 3)%nat -> int_ends f W8 t r \/ int_ends f W8 (45 :: t) r -> cut_token t r f.
Proof.
  intros Hi Hl H. destruct (int_ends_token _ _ _ _ Hi H) as [K|[_ K]]; [now apply token_cut|].
  right. inversion Hi as [E|d l Hd Hl' E]; subst; [discriminate|]. destruct l as [|x [|y [|]]]; try discriminate.
  inversion Hl' as [|? ? Hx Hy]; subst. inversion Hy; subst. exists d, x, y. auto.
Qed.
Theorem intOf_stops s w c f l v r : p_readIntOf s w c f l = POk v r ->
  exists t, l = t ++ r /\ int_text s (c :: t) v /\ in_range s w v /\ int_ends f w (c :: t) r.
Proof.
  intros H. assert (Hd := intOf_ws _ _ _ _ _ _ _ H). assert (Hc := digit_nows c Hd).
  destruct (intOf_sound _ _ _ _ _ _ _ H) as (t0 & E0 & Ht0 & Hr0).
  rewrite intOf_take in H by auto. exists t0. split; auto. split; auto. split; auto.
  assert (U : forall s0 t, c :: l = s0 ++ t ++ r -> ws s0 -> t = c :: t0).
  { intros s0 t K Ks. destruct (app_ws_cons _ _ _ _ _ K Ks Hc) as [_ E']. subst l. change (c :: t0 ++ r) with ((c :: t0) ++ r) in E'.
    apply app_inv_tail in E'. now symmetry. }
  assert (Hw : (w = W8 /\ wbits w = 8) \/ (wbits w = 16 \/ wbits w = 32 \/ wbits w = 64)) by (destruct w; auto).
  destruct s.
  - destruct Hw as [[-> Hw]|Hw].
    + rewrite Hw in H. apply ReadI8_spec in H. destruct H as (s0 & t & E & Hs & Ht & Hv). rewrite <- (U _ _ E Hs).
      destruct Ht; [now apply cut_int_ends|now apply cut_int_ends_neg].
    + apply ReadI_spec in H; auto. destruct H as (s0 & t & E & Hs & Ht & Hv). rewrite <- (U _ _ E Hs).
      destruct Ht; [now apply token_int_ends|now apply token_int_ends_neg].
  - destruct Hw as [[-> Hw]|Hw].
    + rewrite Hw in H. apply ReadU8_spec in H. destruct H as (s0 & t & E & Hs & Ht & <- & Hv). rewrite <- (U _ _ E Hs).
      now apply cut_int_ends.
    + apply ReadU_spec in H; auto. destruct H as (s0 & t & E & Hs & Ht & <- & Hv). rewrite <- (U _ _ E Hs).
      now apply token_int_ends.
Qed.
Theorem intOf_run s w c t f r v : int_text s (c :: t) v -> in_range s w v -> int_ends f w (c :: t) r ->
  p_readIntOf s w c f (t ++ r) = POk v r.
Proof.
  intros Ht Hv He. destruct (int_text_first _ _ _ Ht) as (c0 & t0 & [= <- <-] & Hd). assert (Hc := digit_nows c Hd).
  rewrite intOf_take by auto. change (c :: t ++ r) with ([] ++ (c :: t) ++ r).
  assert (Hw : (w = W8 /\ wbits w = 8) \/ (w <> W8 /\ (wbits w = 16 \/ wbits w = 32 \/ wbits w = 64))) by (destruct w; auto; right; split; auto; discriminate).
  unfold in_range in Hv. rewrite <- wbits_bits in Hv.
  remember (c :: t) as u eqn:Eu. destruct Ht as [s u Hi|u Hi].
  - assert (Hl : dec u < 256 -> (length u <= 3)%nat).
    { intros. apply dec_length; auto. }
    assert (Htok : w <> W8 -> uint_token u r f).
    { intros Hn. destruct (int_ends_token w u r f Hi (or_introl He)) as [K|[K _]]; tauto. }
    destruct s; destruct Hw as [[-> Hw]|[Hn Hw]].
    + rewrite Hw in *. apply ReadI8_spec. exists [], u. split; auto. split; [apply ws_nil|]. split; [|exact Hv].
      constructor. apply int_ends_cut; auto. apply Hl. change (2 ^ (8 - 1)) with 128 in Hv. lia.
    + apply ReadI_spec; auto. exists [], u. split; auto. split; [apply ws_nil|]. split; [|exact Hv]. constructor; auto.
    + rewrite Hw in *. apply ReadU8_spec. exists [], u. split; auto. split; [apply ws_nil|].
      change (2 ^ 8) with 256 in Hv. split; [|lia]. apply int_ends_cut; auto. apply Hl. lia.
    + apply ReadU_spec; auto. exists [], u. split; auto. split; [apply ws_nil|]. split; [auto|lia].
  - assert (Htok : w <> W8 -> uint_token u r f).
    { intros Hn. destruct (int_ends_token w u r f Hi (or_intror He)) as [K|[K _]]; tauto. }
    destruct Hw as [[-> Hw]|[Hn Hw]].
    + rewrite Hw in *. apply ReadI8_spec. exists [], (45 :: u). split; auto. split; [apply ws_nil|]. split; [|exact Hv].
      constructor. apply int_ends_cut; auto. apply dec_length; auto. change (2 ^ (8 - 1)) with 128 in Hv. lia.
    + apply ReadI_spec; auto. exists [], (45 :: u). split; auto. split; [apply ws_nil|]. split; [|exact Hv]. constructor; auto.
Qed.

(** ** Splitting a text *)
Lemma number_notnull t : number t -> t <> bs "null".
Proof. intros H ->. destruct (number_first _ H) as (c & t' & [= <- _] & Hc). unfold is_digit in Hc. lia. Qed.
Lemma split_start w t r w' t' r' : w ++ t ++ r = w' ++ t' ++ r' -> ws w -> ws w' -> starts t -> starts t' -> w = w' /\ t ++ r = t' ++ r'.
Proof.
  intros H Hw Hw' (c & u & -> & Hc & _) (c' & u' & -> & Hc' & _). revert w' H Hw'.
  induction Hw as [|x w Hx Hw IH]; intros [|y w'] H Hw'; auto.
  - simpl in H. injection H as -> _. inversion Hw'; subst. tauto.
  - simpl in H. injection H as -> _. tauto.
  - simpl in H. injection H as -> H. inversion Hw'; subst. destruct (IH _ H) as [-> K]; auto.
Qed.


Section PartText.
Variables F32 F64 : floatOps.
Variable C : custom.
Notation gval := (gval F32 F64 C).
Variable E : env F32 F64 C.
Notation zero := (zero F32 F64 C E).
Notation under := (under F32 F64 C E).
Variables b d : bool.
Variable sf : Z -> Z.
Variable cs : bool.
Hypothesis sane32 : float_sane F32.
Hypothesis sane64 : float_sane F64.
Notation lookup := (findField sf cs).
Notation decodes := (decodes F32 F64 C E lookup b d).
Notation at_path := (at_path F32 F64 C E lookup b d).
Notation pd := (p_decode F32 F64 C E b d sf cs).
Notation integral := (integral F32 F64 C E).
Notation integral_at := (integral_at F32 F64 C E).
Notation stops := (stops F32 F64 C E).
Notation taken := (taken F32 F64 C E lookup b d).
Notation taken_at := (taken_at F32 F64 C E lookup b d).

Ltac noheld := try solve [exfalso; match goal with Q : _ = TEface \/ _ |- _ => destruct Q; discriminate end].
(** *** What is taken was decoded *)
Lemma dec_text n T o v f w0 t r v' : ws w0 -> pd n T o v f (w0 ++ t ++ r) = POk v' r -> starts t -> decodes T o v t v'.
Proof.
  intros Hw0 H Hs. apply decode_sound in H; auto. destruct H as (w & t' & Et & Hw & Hd).
  destruct (split_start w0 t r w t' r Et Hw0 Hw Hs) as [_ K]; [eapply decodes_starts; eauto|].
  apply app_inv_tail in K. now subst.
Qed.
Lemma float_stops F (sane : float_sane F) inj (o : decOpts) (v : gval) f w0 t r v' : number t -> ws w0 ->
  p_floatDecoder F32 F64 C F inj o v f (w0 ++ t ++ r) = POk v' r -> num_ends t f r.
Proof.
  intros Hn Hw0 H. destruct (number_first _ Hn) as (c & t' & -> & Hc). unfold p_floatDecoder in H.
  change ((c :: t') ++ r) with (c :: (t' ++ r)) in H. rewrite next_run in H by auto using digit_nows.
  rewrite digit_not_n in H by auto. cbv iota in H. apply bind_ret in H. destruct H as (x & H & ->).
  apply ReadFloat_spec in H; auto. destruct H as (w2 & t2 & Et & Hw2 & Hn2 & He & _).
  destruct (app_ws_cons _ _ _ _ _ Et Hw2 (digit_nows _ Hc)) as [-> E2].
  change (c :: t' ++ r) with ((c :: t') ++ r) in E2. apply app_inv_tail in E2. now subst t2.
Qed.
Lemma value_num t j f r : number t -> value t j -> vends t j f r -> num_ends t f r.
Proof.
  intros Hn Hj Hv. assert (K : value t (JNum t)) by now constructor.
  destruct (number_first _ Hn) as (c & t' & -> & Hc).
  inversion Hj; subst; auto; exfalso; unfold is_digit in Hc; try (cbn in *; lia).
Qed.
Theorem dec_stops n : forall T o v f w0 t r v', number t -> ws w0 -> pd n T o v f (w0 ++ t ++ r) = POk v' r -> stops f T v t r.
Proof.
  induction n as [|n IH]; intros T o v f w0 t r v' Hn Hw0 H; [discriminate|]. intros _.
  assert (Hst := starts_num _ Hn).
  assert (HD := dec_text _ _ _ _ _ _ _ _ _ Hw0 H Hst).
  destruct (number_first _ Hn) as (c & t' & Et & Hc).
  assert (NX : forall A (k : Z -> P A), pbind p_nextToken k f (w0 ++ t ++ r) = k c f (t ++ r)).
  { intros A k. subst t. apply (next_run f w0 c (t' ++ r)); auto using digit_nows. }
  assert (NQ : forall x, t <> quote x) by (intros x ->; injection Et as <- _; unfold is_digit in Hc; lia).
  assert (NA : forall ts, ~ array_text t ts) by (intros ts K; inversion K; subst; match goal with Q : 91 :: _ = c :: _ |- _ => injection Q as <- _ end; unfold is_digit in Hc; lia).
  assert (NO : forall ts, ~ object_text t ts) by (intros ts K; inversion K; subst; match goal with Q : 123 :: _ = c :: _ |- _ => injection Q as <- _ end; unfold is_digit in Hc; lia).
  assert (NL := number_notnull t Hn).
  destruct T as [|s w| | | | | |id|id|T|k T|T|k T|layout fs| | |m|]; cbn [p_decode] in H.
  - exfalso. inversion HD; subst; try congruence; try (eapply NQ; reflexivity); try discriminate;
      match goal with Q : _ = c :: _ |- _ => injection Q as <- _ end; unfold is_digit in Hc; lia.
  - split; [|intros K; exfalso; apply (K w); constructor]. intros w1 K. assert (w1 = w) as -> by (inversion K; subst; auto; noheld). clear K.
    unfold p_intDecoder in H. rewrite NX in H. rewrite digit_not_n in H by auto. cbv iota in H.
    destruct (o_quoted o || o_mapKey o) eqn:Ho.
    { destruct (Z.eqb_spec c cQUOTE) as [->|]; [|discriminate]. exfalso. unfold is_digit in Hc. lia. }
    subst t. rewrite (pbind_run _ _ _ _ c ((c :: t') ++ r)) in H by reflexivity. simpl app in H. rewrite inc_run in H.
    apply pbind_ok in H. destruct H as (i & l2 & Hi & H). apply POk_inj in H. destruct H as [_ ->].
    apply intOf_stops in Hi. destruct Hi as (t2 & Et & _ & _ & He). apply app_inv_tail in Et. now subst t2.
  - split; [intros w K; inversion K; noheld|intros _]. eapply (float_stops F32); eauto.
  - split; [intros w K; inversion K; noheld|intros _]. eapply (float_stops F64); eauto.
  - exfalso. inversion HD; subst; try congruence; try (eapply NQ; reflexivity).
  - split; [intros w K; inversion K; noheld|intros _].
    unfold p_jsonNumberDecoder in H. rewrite NX in H. rewrite digit_isNumber in H by auto. subst t. simpl app in H. rewrite inc_run in H.
    apply bind_ret in H. destruct H as (x & Hs & ->). apply capturedNumber in Hs; auto. destruct Hs as (t2 & _ & E2 & He & _).
    apply app_inv_tail in E2. now subst t2.
  - split; [intros w K; inversion K; noheld|intros _].
    apply bind_ret in H. destruct H as (x & H & ->). apply AppendRaw_spec in H. destruct H as (w & j & E2 & Hw & Hj & He).
    destruct (split_start w0 t r w x r E2 Hw0 Hw Hst (starts_value _ _ Hj)) as [<- E3]. apply app_inv_tail in E3. subst x.
    eapply value_num; eauto.
  - split; [intros w K; inversion K; noheld|intros _].
    apply pbind_ok in H. destruct H as (x & l2 & H1 & H). apply SkipRaw_spec in H1.
    destruct H1 as (w & j & E2 & Hw & Hj & He). apply method_inv in H. destruct H as (s & s' & -> & Hm & -> & ->).
    destruct (split_start w0 t r w x r E2 Hw0 Hw Hst (starts_value _ _ Hj)) as [<- E3]. apply app_inv_tail in E3. subst x.
    eapply value_num; eauto.
  - exfalso. inversion HD; subst; try congruence; try (eapply NQ; reflexivity).
  - unfold p_pointerDecoder in H. rewrite NX in H. rewrite digit_not_n in H by auto. cbv iota in H.
    destruct v as [| | | | | | |q| | | | |]; try discriminate. apply bind_ret in H. destruct H as (x & H & ->).
    apply (IH _ _ _ _ []) in H; auto using ws_nil. destruct (H Hn) as [H1 H2]. destruct q; split.
    + intros w K. inversion K; subst; auto; noheld.
    + intros K. apply H2. intros w Q. apply (K w). now constructor.
    + intros w K. inversion K; subst; auto; noheld.
    + intros K. apply H2. intros w Q. apply (K w). now constructor.
  - exfalso. inversion HD; subst; try congruence; eapply NA; eauto.
  - exfalso. inversion HD; subst; try congruence; try (eapply NQ; reflexivity); eapply NA; eauto.
  - exfalso. inversion HD; subst; try congruence; eapply NO; eauto.
  - exfalso. inversion HD; subst; try congruence; eapply NO; eauto.
  - unfold p_efaceDecoder in H. destruct v as [| | | | | | | | | | | |x]; try discriminate.
    destruct (heldPtr F32 F64 C E x) as [[T y]|] eqn:Eh.
    + destruct (heldPtr_some F32 F64 C E _ _ _ Eh) as (P & -> & HT). rewrite NX in H. rewrite digit_not_n in H by auto. cbv iota in H.
      apply bind_ret in H. destruct H as (v1 & H & ->). apply (IH _ _ _ _ []) in H; auto using ws_nil. destruct (H Hn) as [H1 H2]. split.
      * intros w K. inversion K; subst; auto. match goal with Q : under P = TPtr _ |- _ => rewrite HT in Q; injection Q as <- end. auto.
      * intros K. apply H2. intros w Q. apply (K w). eapply ig_held; eauto.
    + split.
      * intros w K. inversion K; subst. exfalso. eapply (heldPtr_none F32 F64 C E); eauto.
      * intros _. apply bind_ret in H. destruct H as (g & H & ->). apply Read_conv in H; auto.
        destruct H as (w & t2 & j & E2 & Hw & Hj & Hg & He).
        destruct (split_start w0 t r w t2 r E2 Hw0 Hw Hst (starts_value _ _ Hj)) as [<- E3]. apply app_inv_tail in E3. subst t2.
        eapply value_num; eauto.
  - unfold p_ifaceDecoder in H. rewrite NX in H. rewrite digit_not_n in H by auto. cbv iota in H.
    destruct v as [| | | | | | | | | | | |[[P y]|]]; try discriminate.
    destruct (under P) as [| | | | | | | | |T| | | | | | | | ] eqn:EP; try (destruct y as [| | | | | | | | | |[|]| |]; discriminate).
    destruct y as [| | | | | | |[y|]| | | | |]; try discriminate.
    apply bind_ret in H. destruct H as (v1 & H & ->). apply (IH _ _ _ _ []) in H; auto using ws_nil. destruct (H Hn) as [H1 H2]. split.
    + intros w K. inversion K; subst; auto. match goal with Q : under P = TPtr _ |- _ => rewrite EP in Q; injection Q as <- end. auto.
    + intros K. apply H2. intros w Q. apply (K w). eapply ig_held; eauto.
  - apply IH in H; auto. destruct (H Hn) as [H1 H2]. split.
    + intros w K. inversion K; subst; auto; noheld.
    + intros K. apply H2. intros w Q. apply (K w). now constructor.
  - discriminate.
Qed.
Theorem dec_taken n T o v f l r v' : pd n T o v f l = POk v' r -> taken f T o v l r v'.
Proof.
  intros H. destruct (decode_sound F32 F64 C E b d sf cs sane32 sane64 n T o v f l v' r H) as (w & t & -> & Hw & Hd).
  exists w, t. split; auto. split; auto. split; auto. intros Hn. now apply (dec_stops n T o v f w t r v').
Qed.
(** *** What is there is taken *)
Definition runs (T : ty) (o : decOpts) (old : gval) (t : bytes) (v : gval) : Prop :=
  exists n0, forall n, (n0 <= n)%nat -> forall f w r, ws w -> stops f T old t r -> pd n T o old f (w ++ t ++ r) = POk v r.
Lemma runs_plain T o old t v : (number t -> forall w, ~ integral T old w) -> decodes T o old t v -> runs T o old t v.
Proof.
  intros Hi H. destruct (proj1 (decode_complete F32 F64 C E b d sf cs sane32 sane64)) with (1 := H) as (n0 & K).
  exists n0. intros n Hn f w r Hw Hs. apply K; auto. intros Ht. destruct (Hs Ht) as [_ H2]. apply H2. auto.
Qed.
Lemma runs_int s w0 o old t z : o_quoted o = false -> o_mapKey o = false -> int_text s t z -> in_range s w0 z ->
  runs (TInt s w0) o old t (VInt z).
Proof.
  intros Ho Hm Ht Hz. exists 1%nat. intros n Hn f w r Hw He. destruct n as [|n]; [lia|]. cbn [p_decode]. unfold p_intDecoder.
  destruct (He (int_text_number _ _ _ Ht)) as [H1 _]. specialize (H1 w0 (ig_int _ _ _ _ s w0 old)).
  destruct (int_text_first _ _ _ Ht) as (c & t' & -> & Hc). simpl app. rewrite next_run by (auto using digit_nows).
  rewrite digit_not_n by auto. rewrite Ho, Hm. cbv iota beta delta [orb].
  rewrite (pbind_run _ _ _ _ c (c :: t' ++ r)) by reflexivity. rewrite inc_run.
  rewrite (pbind_run _ _ _ _ z r); [reflexivity|]. now apply intOf_run.
Qed.
Lemma runs_ptr T o q t v : t <> bs "null" -> starts t ->
  runs T o (match q with Some x => x | None => zero T end) t v -> runs (TPtr T) o (VPtr q) t (VPtr (Some v)).
Proof.
  intros Hn Hs (n0 & IH). exists (S n0). intros n Hl f w r Hw He. destruct n as [|n]; [lia|]. cbn [p_decode]. unfold p_pointerDecoder.
  edestruct (starts_next t f w r gval) as (c & t' & Et & Hc & _ & _ & _ & H4 & ->); auto.
  rewrite (proj2 (Z.eqb_neq c c_n) (fun Q => Hn (H4 Q))). apply bind_ret. exists v. split; auto.
  apply (IH n ltac:(lia) f [] r ws_nil). intros Ht. destruct (He Ht) as [H1 H2]. split.
  - intros w1 Hi. apply H1. destruct q; now constructor.
  - intros Hi. apply H2. intros w1 Q. destruct q; inversion Q; subst; try (eapply Hi; eauto; fail); noheld.
Qed.
Lemma runs_held T o P T' x t v : T = TEface \/ T = TIface -> under P = TPtr T' -> t <> bs "null" -> starts t -> runs T' noOpts x t v ->
  runs T o (VIface (Some (P, VPtr (Some x)))) t (VIface (Some (P, VPtr (Some v)))).
Proof.
  intros HT HP Hn Hs (n0 & IH). exists (S n0). intros n Hl f w r Hw He. destruct n as [|n]; [lia|].
  assert (K : pd n T' noOpts x f (t ++ r) = POk v r).
  { apply (IH n ltac:(lia) f [] r ws_nil). intros Ht. destruct (He Ht) as [H1 H2]. split.
    - intros w1 Hi. apply H1. eapply ig_held; eauto.
    - intros Hi. apply H2. intros w1 Q. inversion Q; subst; try (destruct HT; discriminate).
      match goal with Q : under P = TPtr _ |- _ => rewrite HP in Q; injection Q as <- end. eapply Hi; eauto. }
  destruct HT as [->| ->]; cbn [p_decode]; [unfold p_efaceDecoder; cbn [heldPtr]; rewrite HP|unfold p_ifaceDecoder];
    (edestruct (starts_next t f w r gval) as (c & t' & Et & Hc & _ & _ & _ & H4 & ->); auto);
    rewrite (proj2 (Z.eqb_neq c c_n) (fun Q => Hn (H4 Q))); rewrite ?HP; apply bind_ret; exists v; split; auto.
Qed.
Lemma runs_ref m o old t v : runs (te_type _ _ _ E m) o old t v -> runs (TRef m) o old t v.
Proof.
  intros (n0 & IH). exists (S n0). intros n Hl f w r Hw He. destruct n as [|n]; [lia|]. apply (IH n); auto; [lia|].
  intros Ht. destruct (He Ht) as [H1 H2]. split.
  - intros w1 Hi. apply H1. now constructor.
  - intros Hi. apply H2. intros w1 Q. inversion Q; subst; noheld. eapply Hi; eauto.
Qed.
#[local] Hint Constructors SpecVal.decodes : core.
Theorem decodes_runs T o old t v : decodes T o old t v -> runs T o old t v.
Proof.
  assert (NN : ~ number (bs "null")) by (intros K; now apply number_notnull in K).
  assert (NQ : forall x, ~ number (quote x)) by (intros x K; destruct (number_first _ K) as (c & t' & [= <- _] & Hc); unfold is_digit in Hc; lia).
  intros H. induction H.
  all: match goal with |- runs ?T ?o ?old ?t ?v => assert (D : decodes T o old t v) by eauto 3 end.
  all: try solve [apply runs_plain; auto; intros Hn w1 Q; first [exfalso; now apply NQ in Hn|exfalso; now apply NN in Hn|inversion Q; subst; noheld]].
  - now apply runs_int.
  - apply (runs_ptr T o None); auto. eapply decodes_starts; eauto.
  - apply (runs_ptr T o (Some x)); auto. eapply decodes_starts; eauto.
  - apply runs_plain; auto. intros Hn w1 Q. inversion Q; subst. eapply H; eauto.
  - eapply runs_held; eauto. eapply decodes_starts; eauto.
  - eapply runs_held; eauto. eapply decodes_starts; eauto.
  - now apply runs_ref.
Qed.
Theorem taken_dec T o v f l r v' : taken f T o v l r v' -> exists n0, forall n, (n0 <= n)%nat -> pd n T o v f l = POk v' r.
Proof. intros (w & t & -> & Hw & Hd & Hs). destruct (decodes_runs _ _ _ _ _ Hd) as (n0 & K). exists n0. intros n Hn. now apply K. Qed.
Theorem taken_det T o v f l r v' r1 v1 : taken f T o v l r v' -> taken f T o v l r1 v1 -> r1 = r /\ v1 = v'.
Proof.
  intros H H1. apply taken_dec in H. apply taken_dec in H1. destruct H as (n & H), H1 as (n1 & H1).
  specialize (H (Nat.max n n1) ltac:(lia)). specialize (H1 (Nat.max n n1) ltac:(lia)). rewrite H in H1. injection H1 as -> ->. auto.
Qed.
(** a decoder that fails although there was enough fuel finds nothing to take *)
Theorem dec_none n T o v f l e : pd n T o v f l = PErr e -> e <> errDepth -> forall r v', ~ taken f T o v l r v'.
Proof.
  intros H He r v' K. apply taken_dec in K. destruct K as (n0 & K). specialize (K (Nat.max n n0) ltac:(lia)).
  destruct (decode_mono F32 F64 C E b d sf cs n (Nat.max n n0) T o v f l) as [Q|Q]; [lia|congruence|congruence].
Qed.

(** ** Paths *)
Lemma mid_eq {A} (l1 l1' : list A) x x' l2 l2' : l1 ++ x :: l2 = l1' ++ x' :: l2' -> length l1 = length l1' -> l1 = l1' /\ x = x' /\ l2 = l2'.
Proof.
  revert l1'. induction l1 as [|y l1 IH]; intros [|z l1'] H Hl; try discriminate.
  - injection H as -> ->. auto.
  - injection H as -> H. injection Hl as Hl. destruct (IH _ H Hl) as (-> & -> & ->). auto.
Qed.
Lemma at_field_iff path T l1 x l2 w : integral_at (HField (length l1) :: path) T (VStruct (l1 ++ x :: l2)) w <-> integral_at path T x w.
Proof.
  split; [|now constructor]. intros H. inversion H; subst.
  match goal with Q : _ ++ _ = _ ++ _ |- _ => apply mid_eq in Q; auto; destruct Q as (_ & <- & _) end. auto.
Qed.
Lemma at_ptr_iff path T alloc x w : integral_at (HPtr alloc :: path) T (VPtr (Some x)) w <-> integral_at path T x w.
Proof. split; [|now constructor]. intros H. now inversion H. Qed.
Lemma at_alloc_iff path T T' w : integral_at (HPtr (Some T') :: path) T (VPtr None) w <-> integral_at path T (zero T') w.
Proof. split; [|now constructor]. intros H. now inversion H. Qed.
Lemma at_here_iff T v w : integral_at [] T v w <-> integral T v w.
Proof. split; [|now constructor]. intros H. now inversion H. Qed.
Definition stops_at f path T v t r := number t -> (forall n, integral_at path T v n -> int_ends f n t r) /\ ((forall n, ~ integral_at path T v n) -> num_ends t f r).
Lemma stops_at_iff f path T v path' T' v' t r : (forall w, integral_at path T v w <-> integral_at path' T' v' w) ->
  stops_at f path T v t r -> stops_at f path' T' v' t r.
Proof.
  intros H Hs Hn. destruct (Hs Hn) as [H1 H2]. split.
  - intros n K. apply H1. now apply H.
  - intros K. apply H2. intros n Q. apply (K n). now apply H.
Qed.
Theorem follow_taken n T o path : forall v f l v' r, p_follow F32 F64 C E path (pd n T o) v f l = POk v' r -> taken_at f path T o v l r v'.
Proof.
  induction path as [|[i|alloc] path IH]; intros x f l v r H; simpl in H.
  - apply dec_taken in H. destruct H as (w & t & -> & Hw & H & Hs). exists w, t. split; auto. split; auto. split; [now constructor|].
    intros Hn. destruct (Hs Hn) as [H1 H2]. split; [intros; apply H1; now apply at_here_iff|]. intros K. apply H2. intros w1 Q. apply (K w1). now apply at_here_iff.
  - destruct x; try discriminate. destruct (nth_error l0 i) as [y|] eqn:En; [|discriminate].
    apply nth_split in En. destruct En as (l1 & l2 & -> & ->).
    apply bind_ret in H. destruct H as (y' & H & ->). apply IH in H. destruct H as (w & t & -> & Hw & H & Hs).
    exists w, t. split; auto. split; auto. rewrite upd_app. split; [now constructor|]. eapply stops_at_iff; [|exact Hs]. intros w1. symmetry. apply at_field_iff.
  - destruct x as [| | | | | | |q| | | | |]; try discriminate. destruct q as [y|].
    + apply bind_ret in H. destruct H as (y' & H & ->). apply IH in H. destruct H as (w & t & -> & Hw & H & Hs).
      exists w, t. split; auto. split; auto. split; [now constructor|]. eapply stops_at_iff; [|exact Hs]. intros w1. symmetry. apply at_ptr_iff.
    + destruct alloc as [T'|]; [|discriminate].
      apply bind_ret in H. destruct H as (y' & H & ->). apply IH in H. destruct H as (w & t & -> & Hw & H & Hs).
      exists w, t. split; auto. split; auto. split; [now constructor|]. eapply stops_at_iff; [|exact Hs]. intros w1. symmetry. apply at_alloc_iff.
Qed.
Lemma path_runs path T o v t v' : at_path path T o v t v' ->
  exists n0, forall n, (n0 <= n)%nat -> forall f w r, ws w -> stops_at f path T v t r -> p_follow F32 F64 C E path (pd n T o) v f (w ++ t ++ r) = POk v' r.
Proof.
  induction 1 as [T o v t v' H|path T o l1 x l2 t y H (n0 & IH)|path T o alloc x t y H (n0 & IH)|path T o T' t y H (n0 & IH)].
  - destruct (decodes_runs _ _ _ _ _ H) as (n0 & K). exists n0. intros n Hn f w r Hw Hs. apply K; auto. intros Ht. destruct (Hs Ht) as [H1 H2].
    split; [intros; apply H1; now apply at_here_iff|]. intros Q. apply H2. intros w1 Q1. apply (Q w1). now apply at_here_iff.
  - exists n0. intros n Hn f w r Hw He. simpl. rewrite nth_error_mid. apply bind_ret. exists y. rewrite upd_app. split; auto. apply IH; auto.
    eapply stops_at_iff; [|exact He]. intros w1. apply at_field_iff.
  - exists n0. intros n Hn f w r Hw He. simpl. apply bind_ret. exists y. split; auto. apply IH; auto.
    eapply stops_at_iff; [|exact He]. intros w1. apply at_ptr_iff.
  - exists n0. intros n Hn f w r Hw He. simpl. apply bind_ret. exists y. split; auto. apply IH; auto.
    eapply stops_at_iff; [|exact He]. intros w1. apply at_alloc_iff.
Qed.
Theorem taken_follow path T o v f l r v' : taken_at f path T o v l r v' ->
  exists n0, forall n, (n0 <= n)%nat -> p_follow F32 F64 C E path (pd n T o) v f l = POk v' r.
Proof. intros (w & t & -> & Hw & Hd & Hs). destruct (path_runs _ _ _ _ _ _ Hd) as (n0 & K). exists n0. intros n Hn. now apply K. Qed.
Theorem taken_at_det path T o v f l r v' r1 v1 : taken_at f path T o v l r v' -> taken_at f path T o v l r1 v1 -> r1 = r /\ v1 = v'.
Proof.
  intros H H1. apply taken_follow in H. apply taken_follow in H1. destruct H as (n & H), H1 as (n1 & H1).
  specialize (H (Nat.max n n1) ltac:(lia)). specialize (H1 (Nat.max n n1) ltac:(lia)). rewrite H in H1. injection H1 as -> ->. auto.
Qed.
Theorem follow_none n path T o v f l e : p_follow F32 F64 C E path (pd n T o) v f l = PErr e -> e <> errDepth ->
  forall r v', ~ taken_at f path T o v l r v'.
Proof.
  intros H He r v' K. apply taken_follow in K. destruct K as (n0 & K). specialize (K (Nat.max n n0) ltac:(lia)).
  destruct (follow_mono F32 F64 C E b d sf cs n (Nat.max n n0) path T o v f l) as [Q|Q]; [lia|congruence|congruence].
Qed.
End PartText.
