(** base64: the encoder meets the specification and the decoder inverts it. *)
From Coq Require Import String ZArith List Bool Lia Arith.
From Verif Require Import Base Spec SpecStream SpecBase64 ModelBase64.
Import ListNotations.
Local Open Scope Z_scope.

(** digits *)
Definition sixRange : list Z := map Z.of_nat (seq 0 64).
Lemma in_sixRange v : 0 <= v < 64 -> In v sixRange.
Proof. intros H. apply in_map_iff. exists (Z.to_nat v). split; [lia|]. apply in_seq. lia. Qed.
Lemma char_table : forallb (fun v => match nth_error b64_alphabet (Z.to_nat v) with
    | Some c => (nth (Z.to_nat v) encodeStd 0 =? c) && (match decodeMap c with Some v' => v' =? v | None => false end)
        && (0 <=? c) && (c <? 128) && negb (c =? 34) && negb (c =? 92) && (32 <=? c)
    | None => false end) sixRange = true.
Proof. vm_compute. reflexivity. Qed.
Lemma sextet_range v c : sextet v c -> 0 <= v < 64.
Proof.
  intros [H0 H]. assert (Z.to_nat v < 64)%nat; [|lia]. change 64%nat with (length b64_alphabet). apply nth_error_Some. congruence.
Qed.
Lemma sextet_facts v c : sextet v c -> decodeMap c = Some v /\ 32 <= c < 128 /\ c <> 34 /\ c <> 92.
Proof.
  intros H. assert (R := sextet_range _ _ H). destruct H as [_ H].
  assert (K := proj1 (forallb_forall _ _) char_table v (in_sixRange v R)). cbv beta in K. rewrite H in K.
  destruct (decodeMap c) as [v'|]; [|rewrite andb_false_r in K; discriminate].
  repeat (apply andb_prop in K; destruct K as [K ?]). split; [f_equal; lia|]. lia.
Qed.
Lemma encodeChar_sextet v : 0 <= v -> sextet (v mod 64) (encodeChar v).
Proof.
  intros H0. unfold encodeChar. change 63 with (Z.ones 6). rewrite Z.land_ones by lia. change (2 ^ 6) with 64.
  assert (R : 0 <= v mod 64 < 64) by (apply Z.mod_pos_bound; lia). revert R. generalize (v mod 64). intros w R.
  assert (K := proj1 (forallb_forall _ _) char_table w (in_sixRange w R)). cbv beta in K. split; [lia|].
  destruct (nth_error b64_alphabet (Z.to_nat w)) as [c|]; [|discriminate].
  repeat (apply andb_prop in K; destruct K as [K ?]). f_equal. lia.
Qed.

(** shifts as arithmetic *)
Lemma lor_add a b n : 0 <= n -> 0 <= b < 2 ^ n -> a mod 2 ^ n = 0 -> Z.lor a b = a + b.
Proof.
  intros Hn Hb Ha. rewrite Z.add_nocarry_lxor, Z.lxor_lor; auto.
  1,2: apply Z.bits_inj_0; intros i; rewrite Z.land_spec; destruct (Z.lt_ge_cases i 0); [now rewrite Z.testbit_neg_r by lia|];
    destruct (Z.lt_ge_cases i n).
  all: try (replace a with (a / 2 ^ n * 2 ^ n) by (apply Z.div_exact in Ha; [lia|apply Z.pow_nonzero; lia]);
            rewrite Z.mul_pow2_bits_low by lia; reflexivity).
  all: replace (Z.testbit b i) with false; [apply andb_false_r|]; symmetry;
    destruct (Z.eq_dec b 0) as [->|]; [apply Z.bits_0|]; apply Z.bits_above_log2; [lia|];
    apply Z.log2_lt_pow2; [lia|]; eapply Z.lt_le_trans; [apply Hb|]; apply Z.pow_le_mono_r; lia.
Qed.
Ltac pow := change (2 ^ 16) with 65536 in *; change (2 ^ 8) with 256 in *; change (2 ^ 18) with 262144 in *; change (2 ^ 12) with 4096 in *; change (2 ^ 6) with 64 in *.
Lemma val3 a b c : is_byte a -> is_byte b -> is_byte c ->
  Z.lor (Z.lor (Z.shiftl a 16) (Z.shiftl b 8)) c = a * 65536 + b * 256 + c.
Proof.
  unfold is_byte. intros Ha Hb Hc. rewrite !Z.shiftl_mul_pow2 by lia. pow.
  rewrite (lor_add (a * 65536) (b * 256) 16) by (pow; try lia; rewrite Z.mod_mul; lia).
  rewrite (lor_add _ c 8); pow; lia || (replace (a * 65536 + b * 256) with ((a * 256 + b) * 256) by lia; apply Z.mod_mul; lia).
Qed.
Lemma encode_arith n : 0 <= n < 16777216 ->
  n = (n / 262144) mod 64 * 262144 + (n / 4096) mod 64 * 4096 + (n / 64) mod 64 * 64 + n mod 64.
Proof. intros H. Z.to_euclidean_division_equations. lia. Qed.
Lemma shr n k : 0 <= k -> Z.shiftr n k = n / 2 ^ k.
Proof. intros. now apply Z.shiftr_div_pow2. Qed.

Lemma b64_ind3 (P : bytes -> Prop) : P [] -> (forall a, P [a]) -> (forall a b, P [a; b]) ->
  (forall a b c l, P l -> P (a :: b :: c :: l)) -> forall l, P l.
Proof.
  intros H0 H1 H2 H3 l. enough (K : P l /\ (forall a, P (a :: l)) /\ (forall a b, P (a :: b :: l))) by tauto.
  induction l as [|x l (I1 & I2 & I3)]; auto.
Qed.
Theorem b64encode_spec src : is_bytes src -> base64 src (b64encode src).
Proof.
  revert src. apply (b64_ind3 (fun src => is_bytes src -> base64 src (b64encode src))).
  - constructor.
  - intros a B. inversion B as [|? ? Ha]; subst. cbn [b64encode]. cbv zeta. rewrite Z.shiftl_mul_pow2 by lia. rewrite !shr by lia. pow. assert (Ha' := Ha).
    unfold is_byte in Ha'. assert (K := encode_arith (a * 65536) ltac:(lia)).
    eapply b64_one; auto; [|apply encodeChar_sextet|apply encodeChar_sextet]; try (apply Z.div_pos; lia).
    replace (a * 65536 / 64 mod 64) with 0 in K by (Z.to_euclidean_division_equations; lia).
    replace (a * 65536 mod 64) with 0 in K by (Z.to_euclidean_division_equations; lia). lia.
  - intros a b B. inversion B as [|? ? Ha B']; subst. inversion B' as [|? ? Hb]; subst. cbn [b64encode]. cbv zeta.
    assert (Ha' := Ha). assert (Hb' := Hb). unfold is_byte in Ha', Hb'. assert (V := val3 a b 0 Ha Hb ltac:(unfold is_byte; lia)).
    rewrite Z.lor_0_r in V. rewrite V. rewrite !shr by lia. pow. rewrite Z.add_0_r.
    assert (K := encode_arith (a * 65536 + b * 256) ltac:(lia)).
    eapply b64_two; auto; [|apply encodeChar_sextet|apply encodeChar_sextet|apply encodeChar_sextet]; try (apply Z.div_pos; lia).
    replace ((a * 65536 + b * 256) mod 64) with 0 in K by (Z.to_euclidean_division_equations; lia). lia.
  - intros a b c l IH B. inversion B as [|? ? Ha B']; subst. inversion B' as [|? ? Hb B'']; subst. inversion B'' as [|? ? Hc B3]; subst.
    cbn [b64encode]. cbv zeta. assert (Ha' := Ha). assert (Hb' := Hb). assert (Hc' := Hc). unfold is_byte in Ha', Hb', Hc'.
    rewrite val3 by auto. rewrite !shr by lia. pow.
    assert (K := encode_arith (a * 65536 + b * 256 + c) ltac:(lia)).
    eapply b64_three; auto; [|apply encodeChar_sextet..]; try (apply Z.div_pos; lia); [exact K|lia].
Qed.
(** the text is determined by the data *)
Lemma sextet_fun v c c' : sextet v c -> sextet v c' -> c = c'.
Proof. intros [_ H] [_ H']. congruence. Qed.
Theorem base64_fun data : forall t t', base64 data t -> base64 data t' -> t = t'.
Proof.
  intros t t' H. revert t'. induction H; intros t' H'; inversion H'; subst; auto.
  - repeat match goal with H : sextet ?v _ |- _ => pose proof (sextet_range _ _ H); revert H end. intros.
    repeat match goal with H : sextet ?v ?c, K : sextet ?w ?d |- _ => tryif constr_eq v w then fail else (replace w with v in K by lia; revert K) end. intros.
    f_equal; [eapply sextet_fun; eauto|]. f_equal; [eapply sextet_fun; eauto|]. f_equal; [eapply sextet_fun; eauto|].
    f_equal; [eapply sextet_fun; eauto|]. auto.
  - repeat match goal with H : sextet ?v _ |- _ => pose proof (sextet_range _ _ H); revert H end. intros.
    repeat match goal with H : sextet ?v ?c, K : sextet ?w ?d |- _ => tryif constr_eq v w then fail else (replace w with v in K by lia; revert K) end. intros.
    f_equal; [eapply sextet_fun; eauto|]. f_equal; [eapply sextet_fun; eauto|]. f_equal; eapply sextet_fun; eauto.
  - repeat match goal with H : sextet ?v _ |- _ => pose proof (sextet_range _ _ H); revert H end. intros.
    repeat match goal with H : sextet ?v ?c, K : sextet ?w ?d |- _ => tryif constr_eq v w then fail else (replace w with v in K by lia; revert K) end. intros.
    f_equal; [eapply sextet_fun; eauto|]. f_equal; eapply sextet_fun; eauto.
Qed.

(** ** Decoding *)
Lemma val4 w x y z : 0 <= w < 64 -> 0 <= x < 64 -> 0 <= y < 64 -> 0 <= z < 64 ->
  Z.lor (Z.lor (Z.lor (Z.shiftl w 18) (Z.shiftl x 12)) (Z.shiftl y 6)) z = w * 262144 + x * 4096 + y * 64 + z.
Proof.
  intros. rewrite !Z.shiftl_mul_pow2 by lia. pow.
  rewrite (lor_add (w * 262144) (x * 4096) 18) by (pow; try lia; rewrite Z.mod_mul; lia).
  rewrite (lor_add _ (y * 64) 12); pow; try lia.
  2:{ replace (w * 262144 + x * 4096) with ((w * 64 + x) * 4096) by lia; apply Z.mod_mul; lia. }
  rewrite (lor_add _ z 6); pow; try lia. replace (w * 262144 + x * 4096 + y * 64) with ((w * 4096 + x * 64 + y) * 64) by lia; apply Z.mod_mul; lia.
Qed.
Lemma land255 n : Z.land n 255 = n mod 256.
Proof. change 255 with (Z.ones 8). now rewrite Z.land_ones by lia. Qed.
Lemma quantum4 a b c w x y z : is_byte a -> is_byte b -> is_byte c -> 0 <= w < 64 -> 0 <= x < 64 -> 0 <= y < 64 -> 0 <= z < 64 ->
  a * 65536 + b * 256 + c = w * 262144 + x * 4096 + y * 64 + z -> quantumBytes [w; x; y; z] = [a; b; c].
Proof.
  unfold is_byte. intros Ha Hb Hc Hw Hx Hy Hz E. unfold quantumBytes. cbn [nth length firstn Nat.sub]. cbv zeta.
  rewrite val4 by auto. rewrite <- E. rewrite !land255, !shr by lia. pow.
  f_equal; [|f_equal; [|f_equal]]; Z.to_euclidean_division_equations; lia.
Qed.
Lemma quantum3 a b w x y : is_byte a -> is_byte b -> 0 <= w < 64 -> 0 <= x < 64 -> 0 <= y < 64 ->
  a * 65536 + b * 256 = w * 262144 + x * 4096 + y * 64 -> quantumBytes [w; x; y] = [a; b].
Proof.
  intros Ha Hb Hw Hx Hy E. assert (K := quantum4 a b 0 w x y 0 Ha Hb ltac:(unfold is_byte; lia) Hw Hx Hy ltac:(lia) ltac:(lia)).
  change (quantumBytes [w; x; y]) with (firstn 2 (quantumBytes [w; x; y; 0])). now rewrite K.
Qed.
Lemma quantum2 a w x : is_byte a -> 0 <= w < 64 -> 0 <= x < 64 ->
  a * 65536 = w * 262144 + x * 4096 -> quantumBytes [w; x] = [a].
Proof.
  intros Ha Hw Hx E. assert (K := quantum4 a 0 0 w x 0 0 Ha ltac:(unfold is_byte; lia) ltac:(unfold is_byte; lia) Hw Hx ltac:(lia) ltac:(lia) ltac:(lia)).
  change (quantumBytes [w; x]) with (firstn 1 (quantumBytes [w; x; 0; 0])). now rewrite K.
Qed.
Lemma decodeMap_pad : decodeMap 61 = None. Proof. reflexivity. Qed.
Lemma decode_base64 data text : base64 data text -> forall n, (length text <= n)%nat -> b64decodeLoop n text = Some data.
Proof.
  induction 1 as [|a b c w x y z cw cx cy cz data text Ha Hb Hc E Hw Hx Hy Hz H IH
                  |a b w x y cw cx cy Ha Hb E Hw Hx Hy|a w x cw cx Ha E Hw Hx]; intros [|n] Hl; try (simpl in Hl; lia); auto;
    cbn [b64decodeLoop decodeQuantum].
  - rewrite (proj1 (sextet_facts _ _ Hw)), (proj1 (sextet_facts _ _ Hx)), (proj1 (sextet_facts _ _ Hy)), (proj1 (sextet_facts _ _ Hz)).
    cbn [app length Nat.eqb]. rewrite (quantum4 a b c) by (auto; eapply sextet_range; eauto).
    rewrite IH by (cbn [length] in Hl; lia). reflexivity.
  - rewrite (proj1 (sextet_facts _ _ Hw)), (proj1 (sextet_facts _ _ Hx)), (proj1 (sextet_facts _ _ Hy)), decodeMap_pad.
    cbn [app length Nat.eqb isNewline orb quantumPad skipNewlines Z.eqb]. rewrite (quantum3 a b) by (auto; eapply sextet_range; eauto).
    destruct n; reflexivity.
  - rewrite (proj1 (sextet_facts _ _ Hw)), (proj1 (sextet_facts _ _ Hx)), decodeMap_pad.
    cbn [app length Nat.eqb isNewline orb quantumPad skipNewlines Z.eqb]. rewrite (quantum2 a) by (auto; eapply sextet_range; eauto).
    destruct n; reflexivity.
Qed.
Theorem b64decode_complete data text : base64 data text -> b64decode text = Some data.
Proof. intros H. apply (decode_base64 _ _ H). auto. Qed.
Theorem b64_roundtrip data : is_bytes data -> b64decode (b64encode data) = Some data.
Proof. intros B. apply b64decode_complete. now apply b64encode_spec. Qed.
(** base64 text needs no escapes in a JSON string *)
Lemma base64_chars data text : base64 data text -> Forall (fun c => 32 <= c < 128 /\ c <> 34 /\ c <> 92) text.
Proof.
  assert (P : 32 <= 61 < 128 /\ 61 <> 34 /\ 61 <> 92) by lia.
  induction 1; repeat apply Forall_cons; auto; eapply sextet_facts; eauto.
Qed.

(** ** Exactly which texts are decoded *)
Lemma indexOf_ok c l : forall i v, indexOf c l i = Some v -> i <= v /\ nth_error l (Z.to_nat (v - i)) = Some c.
Proof.
  induction l as [|x l IH]; simpl; intros i v H; [discriminate|].
  destruct (x =? c) eqn:E.
  - injection H as <-. split; [lia|]. rewrite Z.sub_diag. simpl. f_equal. lia.
  - apply IH in H. destruct H as [H1 H2]. split; [lia|].
    replace (Z.to_nat (v - i)) with (S (Z.to_nat (v - (i + 1)))) by lia. exact H2.
Qed.
Lemma decodeMap_sextet c v : decodeMap c = Some v -> sextet v c.
Proof. intros H. apply indexOf_ok in H. rewrite Z.sub_0_r in H. exact H. Qed.
Lemma sextet_not_break v c : sextet v c -> isNewline c = false /\ c <> 61.
Proof.
  intros H. split.
  - unfold isNewline. destruct (sextet_facts _ _ H) as (_ & K & _). destruct (c =? 10) eqn:E; [lia|]. destruct (c =? 13) eqn:E2; [lia|auto].
  - intros ->. destruct (sextet_facts _ _ H) as (K & _). discriminate.
Qed.
Lemma skip_breaks src : skipNewlines src = [] -> no_breaks src = [].
Proof. induction src as [|c r IH]; simpl; auto. unfold isNewline. destruct ((c =? 10) || (c =? 13)); simpl; auto. discriminate. Qed.
Lemma skip_breaks_cons src c r : skipNewlines src = c :: r -> no_breaks src = c :: no_breaks r.
Proof.
  induction src as [|d s IH]; simpl; [discriminate|]. unfold isNewline. destruct ((d =? 10) || (d =? 13)) eqn:E; simpl; auto.
  intros [= -> ->]. reflexivity.
Qed.
Lemma breaks_cons c r : isNewline c = false -> no_breaks (c :: r) = c :: no_breaks r.
Proof. unfold isNewline. simpl. now intros ->. Qed.
Lemma breaks_drop c r : isNewline c = true -> no_breaks (c :: r) = no_breaks r.
Proof. unfold isNewline. simpl. now intros ->. Qed.
Definition sextets := Forall2 sextet.
Lemma quantumPad_sound dbuf src out rest : quantumPad dbuf src = Some (out, rest) ->
  rest = [] /\ out = quantumBytes dbuf /\
  ((length dbuf = 2%nat /\ no_breaks src = [61]) \/ (3 <= length dbuf /\ no_breaks src = [])%nat).
Proof.
  unfold quantumPad. destruct (length dbuf) as [|[|[|n]]]; try discriminate.
  - destruct (skipNewlines src) as [|c r] eqn:E; try discriminate. destruct (c =? 61) eqn:E2; try discriminate.
    destruct (skipNewlines r) eqn:E3; try discriminate. intros [= <- <-]. repeat split. left. split; auto.
    rewrite (skip_breaks_cons _ _ _ E), (skip_breaks _ E3). f_equal. lia.
  - destruct (skipNewlines src) eqn:E3; try discriminate. intros [= <- <-]. repeat split. right. split; [lia|]. now apply skip_breaks.
Qed.
Lemma decodeQuantum_sound src : forall dbuf out rest, decodeQuantum dbuf src = Some (out, rest) -> (length dbuf < 4)%nat ->
  (dbuf = [] /\ no_breaks src = [] /\ out = [] /\ rest = []) \/
  (exists vs cs, sextets vs cs /\ out = quantumBytes (dbuf ++ vs) /\ (length rest < length src)%nat /\
     ((length (dbuf ++ vs) = 4%nat /\ no_breaks src = cs ++ no_breaks rest) \/
      (rest = [] /\ length (dbuf ++ vs) = 3%nat /\ no_breaks src = cs ++ [61]) \/
      (rest = [] /\ length (dbuf ++ vs) = 2%nat /\ no_breaks src = cs ++ [61; 61]))).
Proof.
  induction src as [|c r IH]; intros dbuf out rest H L; cbn [decodeQuantum] in H.
  - destruct dbuf; [|discriminate]. injection H as <- <-. auto.
  - destruct (decodeMap c) as [v|] eqn:D.
    + assert (Sx := decodeMap_sextet _ _ D). destruct (sextet_not_break _ _ Sx) as [Nb _]. rewrite (breaks_cons _ _ Nb).
      cbv zeta in H. destruct (length (dbuf ++ [v]) =? 4)%nat eqn:E4.
      * injection H as <- <-. right. exists [v], [c]. split; [repeat constructor; apply Sx|]. split; auto. split; [simpl; lia|].
        left. split; [now apply Nat.eqb_eq|auto].
      * apply IH in H. 2:{ apply Nat.eqb_neq in E4. rewrite app_length in *. simpl in *. lia. }
        destruct H as [(H & _)|(vs & cs & H1 & H2 & Hr & H3)]; [destruct dbuf; discriminate|].
        right. exists (v :: vs), (c :: cs). split; [constructor; auto|]. rewrite <- app_assoc in H2, H3. cbn [app] in H2, H3.
        split; auto. split; [simpl; lia|]. destruct H3 as [(A & ->)|[(A1 & A & ->)|(A1 & A & ->)]]; auto.
    + destruct (isNewline c) eqn:Nb.
      * rewrite (breaks_drop _ _ Nb). apply IH in H; auto. destruct H as [H|(vs & cs & H1 & H2 & Hr & H3)]; auto. right. exists vs, cs.
        split; auto. split; auto. split; [simpl; lia|auto].
      * rewrite (breaks_cons _ _ Nb). destruct (c =? 61) eqn:E; [|discriminate]. apply quantumPad_sound in H. destruct H as (-> & -> & H).
        right. exists [], []. split; [constructor|]. rewrite app_nil_r. split; auto. split; [simpl; lia|]. replace c with 61 by lia.
        destruct H as [(A & ->)|(A & ->)]; [right; right|right; left]; repeat split; auto. lia.
Qed.
Lemma quantum_inv w x y z : 0 <= w < 64 -> 0 <= x < 64 -> 0 <= y < 64 -> 0 <= z < 64 ->
  exists a b c, is_byte a /\ is_byte b /\ is_byte c /\ a * 65536 + b * 256 + c = w * 262144 + x * 4096 + y * 64 + z.
Proof.
  intros. set (n := w * 262144 + x * 4096 + y * 64 + z). exists (n / 65536), ((n / 256) mod 256), (n mod 256). unfold is_byte.
  assert (0 <= n < 16777216) by lia. clearbody n. repeat split; Z.to_euclidean_division_equations; lia.
Qed.
Theorem b64decode_sound n : forall text data, b64decodeLoop n text = Some data -> base64_lax data (no_breaks text).
Proof.
  induction n as [|n IH]; intros text data H.
  { destruct text; [injection H as <-; constructor|discriminate]. }
  destruct text as [|t0 text]; [injection H as <-; constructor|]. cbn [b64decodeLoop] in H.
  destruct (decodeQuantum [] (t0 :: text)) as [[out rest]|] eqn:D; [|discriminate].
  destruct (b64decodeLoop n rest) as [d|] eqn:L; [|discriminate]. cbn [option_map] in H. assert (data = out ++ d) as -> by (injection H; auto).
  apply IH in L. apply decodeQuantum_sound in D; [|simpl; lia].
  destruct D as [(_ & -> & -> & ->)|(vs & cs & Hs & -> & _ & Hd)].
  { simpl in L. exact L. }
  destruct Hd as [(A & ->)|[(-> & A & ->)|(-> & A & ->)]]; cbn [app] in A |- *; cbn [no_breaks filter] in L.
  - destruct Hs as [|w cw ? ? Hw [|x cx ? ? Hx [|y cy ? ? Hy [|z cz ? ? Hz [|]]]]]; try discriminate.
    destruct (quantum_inv w x y z) as (a & b & c & Ha & Hb & Hc & E); try solve [eapply sextet_range; eauto | lia].
    rewrite (quantum4 a b c w x y z); auto; try solve [eapply sextet_range; eauto | lia]. cbn [app]. eapply lax_three; eauto.
  - destruct Hs as [|w cw ? ? Hw [|x cx ? ? Hx [|y cy ? ? Hy [|]]]]; try discriminate.
    inversion L; subst. destruct (quantum_inv w x y 0) as (a & b & c & Ha & Hb & Hc & E); try solve [eapply sextet_range; eauto | lia]; try lia.
    change (quantumBytes [w; x; y]) with (firstn 2 (quantumBytes [w; x; y; 0])).
    rewrite (quantum4 a b c w x y 0); auto; try solve [eapply sextet_range; eauto | lia]; try lia. cbn [firstn app].
    eapply (lax_two a b c); eauto; lia.
  - destruct Hs as [|w cw ? ? Hw [|x cx ? ? Hx [|]]]; try discriminate.
    inversion L; subst. destruct (quantum_inv w x 0 0) as (a & b & c & Ha & Hb & Hc & E); try solve [eapply sextet_range; eauto | lia]; try lia.
    change (quantumBytes [w; x]) with (firstn 1 (quantumBytes [w; x; 0; 0])).
    rewrite (quantum4 a b c w x 0 0); auto; try solve [eapply sextet_range; eauto | lia]; try lia. cbn [firstn app]. unfold is_byte in Hb, Hc.
    eapply (lax_one a (b * 256 + c)); eauto; lia.
Qed.
(** line breaks do not matter *)
Lemma decodeQuantum_breaks src : forall dbuf,
  option_map (fun p => (fst p, no_breaks (snd p))) (decodeQuantum dbuf src) = decodeQuantum dbuf (no_breaks src).
Proof.
  assert (Idem : forall l, skipNewlines (no_breaks l) = no_breaks l).
  { induction l as [|c r IH]; auto. destruct (isNewline c) eqn:E; [now rewrite breaks_drop|]. rewrite breaks_cons by auto. simpl. now rewrite E. }
  assert (Sk : forall l, no_breaks (skipNewlines l) = no_breaks l).
  { induction l as [|c r IH]; auto. simpl skipNewlines. destruct (isNewline c) eqn:E; [now rewrite breaks_drop|]. auto. }
  assert (Nl : forall l, skipNewlines l = [] <-> no_breaks l = []).
  { intros l. split; [apply skip_breaks|]. intros H. destruct (skipNewlines l) eqn:E; auto. apply skip_breaks_cons in E. congruence. }
  induction src as [|c r IH]; intros dbuf.
  { destruct dbuf; reflexivity. }
  cbn [decodeQuantum]. destruct (decodeMap c) as [v|] eqn:D.
  - destruct (sextet_not_break _ _ (decodeMap_sextet _ _ D)) as [Nb _]. rewrite (breaks_cons _ _ Nb). cbn [decodeQuantum]. rewrite D. cbv zeta.
    destruct (length (dbuf ++ [v]) =? 4)%nat; auto.
  - destruct (isNewline c) eqn:Nb.
    + rewrite (breaks_drop _ _ Nb). auto.
    + rewrite (breaks_cons _ _ Nb). cbn [decodeQuantum]. rewrite D, Nb. destruct (c =? 61); auto.
      unfold quantumPad. rewrite Idem. destruct (length dbuf) as [|[|[|k]]]; auto.
      * destruct (skipNewlines r) as [|d s] eqn:E; [apply Nl in E; now rewrite E|]. rewrite (skip_breaks_cons _ _ _ E).
        destruct (d =? 61); auto. rewrite Idem. destruct (skipNewlines s) as [|e u] eqn:E2; [apply Nl in E2; now rewrite E2|].
        now rewrite (skip_breaks_cons _ _ _ E2).
      * destruct (skipNewlines r) as [|d s] eqn:E; [apply Nl in E; now rewrite E|]. now rewrite (skip_breaks_cons _ _ _ E).
Qed.
Lemma breaks_length l : (length (no_breaks l) <= length l)%nat.
Proof. induction l as [|c r IH]; simpl; [lia|]. destruct (negb _); simpl; lia. Qed.
Lemma decodeQuantum_rest src out rest : decodeQuantum [] src = Some (out, rest) -> src <> [] -> (length rest < length src)%nat.
Proof.
  intros H N. apply decodeQuantum_sound in H; [|simpl; lia]. destruct H as [(_ & _ & _ & ->)|(? & ? & _ & _ & H & _)]; auto.
  destruct src; [congruence|simpl; lia].
Qed.
Lemma decodeLoop_breaks n : forall src m, (length src <= n)%nat -> (length (no_breaks src) <= m)%nat ->
  b64decodeLoop n src = b64decodeLoop m (no_breaks src).
Proof.
  induction n as [|n IH]; intros src m L M0.
  { destruct src; [destruct m; reflexivity|simpl in L; lia]. }
  destruct src as [|c r]; [destruct m; reflexivity|]. cbn [b64decodeLoop].
  assert (K := decodeQuantum_breaks (c :: r) []).
  destruct (no_breaks (c :: r)) as [|d s] eqn:E.
  - destruct (decodeQuantum [] (c :: r)) as [[out rest]|] eqn:D; [|discriminate]. simpl in K. injection K as -> K.
    assert (Lr := decodeQuantum_rest _ _ _ D ltac:(discriminate)). cbn [length] in Lr, L. rewrite (IH rest m) by (rewrite ?K; simpl; lia).
    rewrite K. destruct m; reflexivity.
  - destruct m as [|m]; [simpl in M0; lia|]. cbn [b64decodeLoop]. rewrite <- K.
    destruct (decodeQuantum [] (c :: r)) as [[out rest]|] eqn:D; [|reflexivity]. cbn [option_map fst snd] in K |- *. symmetry in K.
    assert (Lr := decodeQuantum_rest _ _ _ D ltac:(discriminate)). assert (Lr' := decodeQuantum_rest _ _ _ K ltac:(discriminate)).
    cbn [length] in *. now rewrite (IH rest m) by lia.
Qed.
Lemma lax_byte3 a b r w x y : is_byte a -> is_byte b -> 0 <= r < 256 -> 0 <= w < 64 -> 0 <= x < 64 -> 0 <= y < 64 ->
  a * 65536 + b * 256 + r = w * 262144 + x * 4096 + y * 64 -> quantumBytes [w; x; y] = [a; b].
Proof.
  intros. change (quantumBytes [w; x; y]) with (firstn 2 (quantumBytes [w; x; y; 0])).
  rewrite (quantum4 a b r w x y 0); auto; lia || (unfold is_byte; lia).
Qed.
Lemma lax_byte2 a r w x : is_byte a -> 0 <= r < 65536 -> 0 <= w < 64 -> 0 <= x < 64 ->
  a * 65536 + r = w * 262144 + x * 4096 -> quantumBytes [w; x] = [a].
Proof.
  intros. change (quantumBytes [w; x]) with (firstn 1 (quantumBytes [w; x; 0; 0])).
  rewrite (quantum4 a (r / 256) (r mod 256) w x 0 0); auto; try lia; unfold is_byte; Z.to_euclidean_division_equations; lia.
Qed.
Lemma decode_lax data text : base64_lax data text -> forall n, (length text <= n)%nat -> b64decodeLoop n text = Some data.
Proof.
  induction 1 as [|a b c w x y z cw cx cy cz data text Ha Hb Hc E Hw Hx Hy Hz H IH
                  |a b r w x y cw cx cy Ha Hb Hr E Hw Hx Hy|a r w x cw cx Ha Hr E Hw Hx]; intros [|n] Hl; try (simpl in Hl; lia); auto;
    cbn [b64decodeLoop decodeQuantum].
  - rewrite (proj1 (sextet_facts _ _ Hw)), (proj1 (sextet_facts _ _ Hx)), (proj1 (sextet_facts _ _ Hy)), (proj1 (sextet_facts _ _ Hz)).
    cbn [app length Nat.eqb]. rewrite (quantum4 a b c) by (auto; eapply sextet_range; eauto).
    rewrite IH by (cbn [length] in Hl; lia). reflexivity.
  - rewrite (proj1 (sextet_facts _ _ Hw)), (proj1 (sextet_facts _ _ Hx)), (proj1 (sextet_facts _ _ Hy)), decodeMap_pad.
    cbn [app length Nat.eqb isNewline orb quantumPad skipNewlines Z.eqb]. rewrite (lax_byte3 a b r) by (auto; eapply sextet_range; eauto).
    destruct n; reflexivity.
  - rewrite (proj1 (sextet_facts _ _ Hw)), (proj1 (sextet_facts _ _ Hx)), decodeMap_pad.
    cbn [app length Nat.eqb isNewline orb quantumPad skipNewlines Z.eqb]. rewrite (lax_byte2 a r) by (auto; eapply sextet_range; eauto).
    destruct n; reflexivity.
Qed.
Theorem b64decode_spec text data : b64decode text = Some data <-> base64_lax data (no_breaks text).
Proof.
  split; [apply b64decode_sound|]. intros H. unfold b64decode. rewrite (decodeLoop_breaks _ _ (length (no_breaks text))); auto.
  apply (decode_lax _ _ H). auto.
Qed.
Lemma base64_is_lax data text : base64 data text -> base64_lax data text.
Proof.
  induction 1 as [|a b c w x y z cw cx cy cz data text Ha Hb Hc Ee H1 H2 H3 H4 _ IH|a b w x y cw cx cy Ha Hb Ee H1 H2 H3|a w x cw cx Ha Ee H1 H2].
  - constructor.
  - now apply (lax_three a b c w x y z).
  - apply (lax_two a b 0 w x y); auto; lia.
  - apply (lax_one a 0 w x); auto; lia.
Qed.
