(** Printing of strings (streamer_str.go). *)
From Coq Require Import String ZArith List Bool Lia.
From Verif Require Import Base Spec SpecStream ModelStream StrFacts.
Import ListNotations.
Local Open Scope Z_scope.

(** ** decodeRune *)
Lemma lor_add a b k : 0 <= k -> 0 <= b < 2 ^ k -> Z.lor (Z.shiftl a k) b = a * 2 ^ k + b.
Proof.
  intros Hk Hb. rewrite <- Z.shiftl_mul_pow2 by lia.
  rewrite <- Z.lxor_lor; [rewrite <- Z.add_nocarry_lxor; [reflexivity|]|].
  all: apply Z.bits_inj'; intros n Hn; rewrite Z.land_spec, Z.bits_0;
    destruct (Z.ltb_spec n k);
    [rewrite Z.shiftl_spec_low by lia; reflexivity|
     replace b with (b mod 2 ^ k) by (apply Z.mod_small; lia);
     rewrite Z.mod_pow2_bits_high by lia; apply andb_false_r].
Qed.
Lemma land63 b : Z.land b 63 = b mod 64. Proof. apply (Z.land_ones b 6). lia. Qed.
Lemma land31 b : Z.land b 31 = b mod 32. Proof. apply (Z.land_ones b 5). lia. Qed.
Lemma land15 b : Z.land b 15 = b mod 16. Proof. apply (Z.land_ones b 4). lia. Qed.
Lemma land7 b : Z.land b 7 = b mod 8. Proof. apply (Z.land_ones b 3). lia. Qed.
Ltac mb := repeat match goal with |- context [?x mod ?n] =>
  lazymatch goal with H : 0 <= x mod n < n |- _ => fail | _ => pose proof (Z.mod_pos_bound x n ltac:(lia)) end end.
Lemma two_eq a b : Z.lor (Z.shiftl (Z.land a 31) 6) (Z.land b 63) = (a mod 32) * 64 + b mod 64.
Proof. rewrite land31, land63. mb. now rewrite lor_add by lia. Qed.
Lemma three_eq a b c : Z.lor (Z.lor (Z.shiftl (Z.land a 15) 12) (Z.shiftl (Z.land b 63) 6)) (Z.land c 63)
  = (a mod 16) * 4096 + (b mod 64) * 64 + c mod 64.
Proof.
  rewrite land15, !land63. mb. rewrite (Z.shiftl_mul_pow2 (b mod 64)) by lia.
  rewrite (lor_add (a mod 16)) by lia.
  replace (a mod 16 * 2 ^ 12 + b mod 64 * 2 ^ 6) with (Z.shiftl (a mod 16 * 64 + b mod 64) 6)
    by (rewrite Z.shiftl_mul_pow2; lia).
  rewrite lor_add by lia. lia.
Qed.
Lemma four_eq a b c d :
  Z.lor (Z.lor (Z.lor (Z.shiftl (Z.land a 7) 18) (Z.shiftl (Z.land b 63) 12)) (Z.shiftl (Z.land c 63) 6)) (Z.land d 63)
  = (a mod 8) * 262144 + (b mod 64) * 4096 + (c mod 64) * 64 + d mod 64.
Proof.
  rewrite land7, !land63. mb. rewrite (Z.shiftl_mul_pow2 (b mod 64)), (Z.shiftl_mul_pow2 (c mod 64)) by lia.
  rewrite (lor_add (a mod 8)) by lia.
  replace (a mod 8 * 2 ^ 18 + b mod 64 * 2 ^ 12) with (Z.shiftl (a mod 8 * 64 + b mod 64) 12)
    by (rewrite Z.shiftl_mul_pow2; lia).
  rewrite lor_add by lia.
  replace ((a mod 8 * 64 + b mod 64) * 2 ^ 12 + c mod 64 * 2 ^ 6) with (Z.shiftl ((a mod 8 * 64 + b mod 64) * 64 + c mod 64) 6)
    by (rewrite Z.shiftl_mul_pow2; lia).
  rewrite lor_add by lia. lia.
Qed.

(** decodeRune in arithmetic form *)
Definition adecode (s : bytes) : Z * nat :=
  match s with
  | [] => (runeErr, 0%nat)
  | b0 :: r =>
      if b0 <? 128 then (b0, 1%nat)
      else if (b0 <? 194) || (244 <? b0) then (runeErr, 1%nat)
      else if b0 <? 224 then
        match r with
        | b1 :: _ => if cont b1 then ((b0 mod 32) * 64 + b1 mod 64, 2%nat) else (runeErr, 1%nat)
        | _ => (runeErr, 1%nat)
        end
      else
        let lo := if b0 =? 224 then 160 else if b0 =? 240 then 144 else 128 in
        let hi := if b0 =? 237 then 159 else if b0 =? 244 then 143 else 191 in
        if b0 <? 240 then
          match r with
          | b1 :: b2 :: _ =>
              if (lo <=? b1) && (b1 <=? hi) && cont b2
              then ((b0 mod 16) * 4096 + (b1 mod 64) * 64 + b2 mod 64, 3%nat)
              else (runeErr, 1%nat)
          | _ => (runeErr, 1%nat)
          end
        else
          match r with
          | b1 :: b2 :: b3 :: _ =>
              if (lo <=? b1) && (b1 <=? hi) && cont b2 && cont b3
              then ((b0 mod 8) * 262144 + (b1 mod 64) * 4096 + (b2 mod 64) * 64 + b3 mod 64, 4%nat)
              else (runeErr, 1%nat)
          | _ => (runeErr, 1%nat)
          end
  end.
Lemma decodeRune_eq s : decodeRune s = adecode s.
Proof.
  unfold decodeRune, adecode. destruct s as [|b0 [|b1 [|b2 [|b3 r]]]]; rewrite ?two_eq, ?three_eq, ?four_eq; reflexivity.
Qed.
Global Opaque decodeRune.

Transparent utf8.
Lemma utf8_cases r : scalar r ->
  (0 <= r < 128 /\ utf8 r = [r]) \/
  (128 <= r < 2048 /\ utf8 r = [192 + r / 64; 128 + r mod 64]) \/
  (2048 <= r < 65536 /\ utf8 r = [224 + r / 4096; 128 + (r / 64) mod 64; 128 + r mod 64]) \/
  (65536 <= r <= 1114111 /\ utf8 r = [240 + r / 262144; 128 + (r / 4096) mod 64; 128 + (r / 64) mod 64; 128 + r mod 64]).
Proof.
  intros H. unfold scalar in H.
  assert (C : r < 128 \/ 128 <= r < 2048 \/ 2048 <= r < 65536 \/ 65536 <= r) by lia.
  unfold utf8. destruct C as [C|[C|[C|C]]].
  - replace (r <? 128) with true by lia. left. split; [lia|reflexivity].
  - replace (r <? 128) with false by lia. replace (r <? 2048) with true by lia. right. left. auto.
  - replace (r <? 128) with false by lia. replace (r <? 2048) with false by lia. replace (r <? 65536) with true by lia. right. right. left. auto.
  - replace (r <? 128) with false by lia. replace (r <? 2048) with false by lia. replace (r <? 65536) with false by lia.
    right. right. right. split; [lia|reflexivity].
Qed.

Opaque utf8.

Ltac euc := Z.to_euclidean_division_equations; lia.
Lemma decode_scalar r l : scalar r -> decodeRune (utf8 r ++ l) = (r, length (utf8 r)).
Proof.
  intros H. rewrite decodeRune_eq. destruct (utf8_cases r H) as [[C ->]|[[C ->]|[[C ->]|[C ->]]]]; simpl length; unfold adecode;
    cbn [app].
  - now replace (r <? 128) with true by lia.
  - replace (_ <? 128) with false by euc. replace (_ || _) with false by euc.
    replace (_ <? 224) with true by euc. unfold cont. replace (_ && _) with true by euc. f_equal. euc.
  - replace (_ <? 128) with false by euc. replace ((224 + r / 4096 <? 194) || _) with false by euc.
    replace (_ <? 224) with false by euc. replace (_ <? 240) with true by euc.
    unfold cont. replace (_ && _ && _) with true; [f_equal; euc|].
    symmetry. unfold scalar in H.
    destruct (Z.eqb_spec (224 + r / 4096) 224), (Z.eqb_spec (224 + r / 4096) 240), (Z.eqb_spec (224 + r / 4096) 237), (Z.eqb_spec (224 + r / 4096) 244); try euc.
  - replace (_ <? 128) with false by euc. replace ((240 + r / 262144 <? 194) || _) with false by euc.
    replace (_ <? 224) with false by euc. replace (_ <? 240) with false by euc.
    unfold cont. replace (_ && _ && _) with true; [f_equal; euc|].
    symmetry. unfold scalar in H.
    destruct (Z.eqb_spec (240 + r / 262144) 224), (Z.eqb_spec (240 + r / 262144) 240), (Z.eqb_spec (240 + r / 262144) 237), (Z.eqb_spec (240 + r / 262144) 244); try euc.
Qed.

Lemma utf8_intro2 b0 b1 : 194 <= b0 < 224 -> cont b1 = true ->
  scalar ((b0 mod 32) * 64 + b1 mod 64) /\ [b0; b1] = utf8 ((b0 mod 32) * 64 + b1 mod 64).
Proof.
  intros H C. unfold cont in C. assert (S : scalar ((b0 mod 32) * 64 + b1 mod 64)) by (unfold scalar; euc).
  split; auto. destruct (utf8_cases _ S) as [[D ->]|[[D ->]|[[D ->]|[D ->]]]]; try euc.
  repeat f_equal; euc.
Qed.
Lemma utf8_intro3 b0 b1 b2 : 224 <= b0 < 240 -> cont b1 = true -> cont b2 = true ->
  (b0 = 224 -> 160 <= b1) -> (b0 = 237 -> b1 <= 159) ->
  scalar ((b0 mod 16) * 4096 + (b1 mod 64) * 64 + b2 mod 64) /\
  [b0; b1; b2] = utf8 ((b0 mod 16) * 4096 + (b1 mod 64) * 64 + b2 mod 64).
Proof.
  intros H C1 C2 L U. unfold cont in *.
  assert (E0 : b0 mod 16 = b0 - 224) by euc. assert (E1 : b1 mod 64 = b1 - 128) by euc.
  assert (E2 : b2 mod 64 = b2 - 128) by euc. rewrite E0, E1, E2.
  assert (S : scalar ((b0 - 224) * 4096 + (b1 - 128) * 64 + (b2 - 128))) by (unfold scalar; lia).
  split; auto. destruct (utf8_cases _ S) as [[D ->]|[[D ->]|[[D ->]|[D ->]]]]; try lia.
  repeat f_equal; euc.
Qed.
Lemma utf8_intro4 b0 b1 b2 b3 : 240 <= b0 <= 244 -> cont b1 = true -> cont b2 = true -> cont b3 = true ->
  (b0 = 240 -> 144 <= b1) -> (b0 = 244 -> b1 <= 143) ->
  scalar ((b0 mod 8) * 262144 + (b1 mod 64) * 4096 + (b2 mod 64) * 64 + b3 mod 64) /\
  [b0; b1; b2; b3] = utf8 ((b0 mod 8) * 262144 + (b1 mod 64) * 4096 + (b2 mod 64) * 64 + b3 mod 64).
Proof.
  intros H C1 C2 C3 L U. unfold cont in *.
  assert (E0 : b0 mod 8 = b0 - 240) by euc. assert (E1 : b1 mod 64 = b1 - 128) by euc.
  assert (E2 : b2 mod 64 = b2 - 128) by euc. assert (E3 : b3 mod 64 = b3 - 128) by euc. rewrite E0, E1, E2, E3.
  assert (S : scalar ((b0 - 240) * 262144 + (b1 - 128) * 4096 + (b2 - 128) * 64 + (b3 - 128))) by (unfold scalar; lia).
  split; auto. destruct (utf8_cases _ S) as [[D ->]|[[D ->]|[[D ->]|[D ->]]]]; try lia.
  repeat f_equal; euc.
Qed.

(** either no scalar value begins here, or decodeRune finds it *)
Lemma decode_sound c l : 0 <= c ->
  (decodeRune (c :: l) = (runeErr, 1%nat) /\ 128 <= c) \/
  exists r x, scalar r /\ c :: l = utf8 r ++ x /\ decodeRune (c :: l) = (r, length (utf8 r)).
Proof.
  intros H0.
  assert (K : (decodeRune (c :: l) = (runeErr, 1%nat) /\ 128 <= c) \/ exists r x, scalar r /\ c :: l = utf8 r ++ x).
  2: { destruct K as [K|(r & x & S & E)]; [now left|]. right. exists r, x. rewrite E, decode_scalar by auto. auto. }
  rewrite decodeRune_eq. unfold adecode.
  destruct (Z.ltb_spec c 128).
  { right. exists c, l. assert (S : scalar c) by (unfold scalar; lia). split; auto.
    destruct (utf8_cases _ S) as [[D ->]|[[D ->]|[[D ->]|[D ->]]]]; try lia. reflexivity. }
  destruct ((c <? 194) || (244 <? c)) eqn:B; [left; auto|].
  destruct (Z.ltb_spec c 224).
  { destruct l as [|b1 x]; [auto|]. destruct (cont b1) eqn:C1; [|auto].
    destruct (utf8_intro2 c b1) as [S E]; [lia|auto|]. right. eexists _, x. split; [exact S|]. now rewrite <- E. }
  cbv zeta. destruct (Z.ltb_spec c 240).
  { destruct l as [|b1 [|b2 x]]; auto.
    destruct (Z.eqb_spec c 240); [lia|]. destruct (Z.eqb_spec c 244); [lia|].
    match goal with |- context [if ?b then _ else _] => destruct b eqn:C end; [|auto].
    apply andb_prop in C as [C C2]. right.
    destruct (utf8_intro3 c b1 b2) as [S E]; auto; try lia.
    - unfold cont. destruct (c =? 224), (c =? 237); lia.
    - intros ->. simpl in C. lia.
    - intros ->. simpl in C. lia.
    - eexists _, x. split; [exact S|]. now rewrite <- E. }
  destruct l as [|b1 [|b2 [|b3 x]]]; auto.
  destruct (Z.eqb_spec c 224); [lia|]. destruct (Z.eqb_spec c 237); [lia|].
  match goal with |- context [if ?b then _ else _] => destruct b eqn:C end; [|auto].
  apply andb_prop in C as [C C3]. apply andb_prop in C as [C C2]. right.
  destruct (utf8_intro4 c b1 b2 b3) as [S E]; auto; try lia.
  - unfold cont. destruct (c =? 240), (c =? 244); lia.
  - intros ->. simpl in C. lia.
  - intros ->. simpl in C. lia.
  - eexists _, x. split; [exact S|]. now rewrite <- E.
Qed.
Lemma decode_bad c l : decodeRune (c :: l) = (runeErr, 1%nat) -> 128 <= c -> forall r x, scalar r -> c :: l <> utf8 r ++ x.
Proof.
  intros H C r x S E. rewrite E, decode_scalar in H by auto. injection H as -> H.
  destruct (utf8_cases _ S) as [[D K]|[[D K]|[[D K]|[D K]]]]; rewrite K in H; simpl in H; unfold runeErr in *; lia.
Qed.

Lemma utf8_ascii r : 0 <= r < 128 -> utf8 r = [r].
Proof. intros H. destruct (utf8_cases r) as [[D ->]|[[D ->]|[[D ->]|[D ->]]]]; unfold scalar; lia || auto. Qed.
Lemma utf8_high r : scalar r -> 128 <= r -> Forall (fun c => 128 <= c) (utf8 r).
Proof.
  intros S H. destruct (utf8_cases r S) as [[D ->]|[[D ->]|[[D ->]|[D ->]]]]; try lia;
    repeat constructor; euc.
Qed.
Lemma utf8_nonempty r : scalar r -> utf8 r <> [].
Proof. intros S. destruct (utf8_cases r S) as [[D ->]|[[D ->]|[[D ->]|[D ->]]]]; discriminate. Qed.

(** ** The loop *)
Lemma items_plain p b us : Forall (fun c => 128 <= c) p -> string_items b us ->
  string_items (p ++ b) (map UByte p ++ us).
Proof. intros Hp Hb. induction Hp; simpl; auto. constructor; auto; lia. Qed.
Lemma denote_bytes p us : denote (map UByte p ++ us) = p ++ denote us.
Proof. induction p as [|c p IH]; [reflexivity|]. change (c :: denote (map UByte p ++ us) = c :: p ++ denote us). now f_equal. Qed.
Lemma denote_code u us : 0 <= u < 55296 \/ 57344 <= u -> denote (UCode u :: us) = utf8 u ++ denote us.
Proof.
  intros H. change (denote (UCode u :: us)) with
    (if is_high u then match us with UCode v :: r' => if is_low v then utf8 (65536 + (u - 55296) * 1024 + (v - 56320)) ++ denote r'
            else utf8 65533 ++ denote us | _ => utf8 65533 ++ denote us end
     else if is_low u then utf8 65533 ++ denote us else utf8 u ++ denote us).
  unfold is_high, is_low. replace (_ && _) with false by lia. now replace (_ && _) with false by lia.
Qed.
Lemma denote_esc c us : denote (UEsc c :: us) = c :: denote us.
Proof. reflexivity. Qed.
Lemma denote_byte c us : denote (UByte c :: us) = c :: denote us.
Proof. reflexivity. Qed.

(** the code points a string body may contain *)
Definition clean (html : bool) (r : Z) : Prop :=
  scalar r /\ 32 <= r /\ r <> 8232 /\ r <> 8233 /\ (html = true -> r <> 60 /\ r <> 62 /\ r <> 38).
Definition points (html : bool) (b : bytes) : Prop :=
  exists rs, b = flat_map utf8 rs /\ Forall (clean html) rs.
Lemma points_app h a b : points h a -> points h b -> points h (a ++ b).
Proof.
  intros (ra & -> & A) (rb & -> & B). exists (ra ++ rb). split; [now rewrite flat_map_app|now apply Forall_app].
Qed.
Lemma points_utf8 h r : clean h r -> points h (utf8 r).
Proof. intros H. exists [r]. split; [simpl; now rewrite app_nil_r|auto]. Qed.
Definition cleanb (c : Z) : bool := (32 <=? c) && (c <? 127) && negb (c =? 60) && negb (c =? 62) && negb (c =? 38).
Lemma points_ascii h l : forallb cleanb l = true -> points h l.
Proof.
  induction l as [|c l IH]; intros H.
  - exists []. split; [reflexivity|constructor].
  - cbn [forallb] in H. apply andb_prop in H as [H1 H2]. unfold cleanb in H1.
    change (c :: l) with ([c] ++ l). apply points_app; auto. rewrite <- (utf8_ascii c) by lia.
    apply points_utf8. unfold clean, scalar. lia.
Qed.

(** one replacement: the text written for [c], its items *)
Definition piece (html : bool) (p : bytes) (us : list unit16) (s : bytes) : Prop :=
  points html p /\ (forall b vs, string_items b vs -> string_items (p ++ b) (us ++ vs)) /\
  (forall vs, denote (us ++ vs) = s ++ denote vs).

Lemma piece_esc h e v : short_escape e v -> piece h [92; e] [UEsc v] [v].
Proof.
  intros H. split; [|split].
  - apply points_ascii. destruct H; reflexivity.
  - intros b vs Hb. simpl. now constructor.
  - reflexivity.
Qed.
Lemma piece_code h hx u : forallb cleanb hx = true -> hex4 hx u -> 0 <= u < 55296 \/ 57344 <= u ->
  piece h (92 :: 117 :: hx) [UCode u] (utf8 u).
Proof.
  intros C H U. split; [|split].
  - now apply points_ascii.
  - intros b vs Hb. simpl. now constructor.
  - intros vs. apply denote_code. lia.
Qed.
Lemma hexDigit_hex i : 0 <= i < 16 -> hex (hexDigit i) i.
Proof.
  intros H. unfold hexDigit. destruct (Z.ltb_spec i 10).
  - replace i with (48 + i - 48) at 2 by lia. constructor. lia.
  - replace i with (87 + i - 87) at 2 by lia. constructor. lia.
Qed.
Lemma hexDigit_clean i : 0 <= i < 16 -> cleanb (hexDigit i) = true.
Proof. intros H. unfold hexDigit, cleanb. destruct (Z.ltb_spec i 10); lia. Qed.
Lemma hex4_00 i : 0 <= i < 128 -> hex4 [48; 48; hexDigit (Z.shiftr i 4); hexDigit (Z.land i 15)] i.
Proof.
  intros H. rewrite land15, Z.shiftr_div_pow2 by lia. change (2 ^ 4) with 16.
  assert (E : i = (48 - 48) * 4096 + (48 - 48) * 256 + (i / 16) * 16 + i mod 16) by euc.
  rewrite E at 3. constructor; try (constructor; lia); apply hexDigit_hex; euc.
Qed.
Lemma hex_d c v : 48 <= c <= 57 -> v = c - 48 -> hex c v. Proof. intros ? ->. now constructor. Qed.
Lemma hex_l c v : 97 <= c <= 102 -> v = c - 87 -> hex c v. Proof. intros ? ->. now constructor. Qed.
Lemma h4' a b c d va vb vc vd u : hex a va -> hex b vb -> hex c vc -> hex d vd ->
  u = va * 4096 + vb * 256 + vc * 16 + vd -> hex4 [a; b; c; d] u.
Proof. intros ? ? ? ? ->. now constructor. Qed.

(** the replacement table *)
Lemma safeSet_piece h c : 0 <= c < 128 -> safeSet h c <> [] -> exists us, piece h (safeSet h c) us [c].
Proof.
  intros Hc. unfold safeSet.
  destruct (Z.eqb_spec c 10) as [->|]; [intros _; exists [UEsc 10]; apply piece_esc; constructor|].
  destruct (Z.eqb_spec c 13) as [->|]; [intros _; exists [UEsc 13]; apply piece_esc; constructor|].
  destruct (Z.eqb_spec c 9) as [->|]; [intros _; exists [UEsc 9]; apply piece_esc; constructor|].
  destruct (Z.eqb_spec c 34) as [->|]; [intros _; exists [UEsc 34]; apply piece_esc; constructor|].
  destruct (Z.eqb_spec c 92) as [->|]; [intros _; exists [UEsc 92]; apply piece_esc; constructor|].
  destruct h; [|congruence].
  assert (K : forall hx u, u < 128 -> forallb cleanb hx = true -> hex4 hx u -> 0 <= u -> exists us, piece true (92 :: 117 :: hx) us [u]).
  { intros hx u L Q X U. exists [UCode u]. rewrite <- utf8_ascii by lia. apply piece_code; auto. lia. }
  destruct (Z.eqb_spec c 60) as [->|].
  { intros _. apply K; try reflexivity; try lia. eapply h4'; [apply hex_d|apply hex_d|apply hex_d|apply hex_l|]; reflexivity || lia. }
  destruct (Z.eqb_spec c 62) as [->|].
  { intros _. apply K; try reflexivity; try lia. eapply h4'; [apply hex_d|apply hex_d|apply hex_d|apply hex_l|]; reflexivity || lia. }
  destruct (Z.eqb_spec c 38) as [->|].
  { intros _. apply K; try reflexivity; try lia. eapply h4'; [apply hex_d|apply hex_d|apply hex_d|apply hex_d|]; reflexivity || lia. }
  congruence.
Qed.
Lemma safeSet_control h c : c < 32 -> safeSet true c = safeSet h c.
Proof.
  intros H. unfold safeSet. destruct h; auto.
  destruct (c =? 10), (c =? 13), (c =? 9), (c =? 34), (c =? 92); auto.
  replace (c =? 60) with false by lia. replace (c =? 62) with false by lia. now replace (c =? 38) with false by lia.
Qed.
Lemma safeSet_plain h c : 32 <= c -> c < 128 -> safeSet h c = [] -> c <> 34 /\ c <> 92 /\ clean h c.
Proof.
  intros L U. unfold safeSet, clean, scalar.
  destruct (Z.eqb_spec c 10); [lia|]. destruct (Z.eqb_spec c 13); [lia|]. destruct (Z.eqb_spec c 9); [lia|].
  destruct (Z.eqb_spec c 34); [discriminate|]. destruct (Z.eqb_spec c 92); [discriminate|]. destruct h.
  - destruct (Z.eqb_spec c 60); [discriminate|]. destruct (Z.eqb_spec c 62); [discriminate|].
    destruct (Z.eqb_spec c 38); [discriminate|]. intros _. lia.
  - intros _. repeat split; try lia; discriminate.
Qed.

(** what the loop leaves *)
Definition printed (html : bool) (s b : bytes) : Prop :=
  exists us, string_items b us /\ points html b /\ sanitized s (denote us).
Lemma printed_scalar h r l p us b : scalar r -> piece h p us (utf8 r) -> printed h l b -> printed h (utf8 r ++ l) (p ++ b).
Proof.
  intros S (P1 & P2 & P3) (vs & I & P & Z). exists (us ++ vs). split; [auto|]. split; [now apply points_app|].
  rewrite P3. now constructor.
Qed.
Lemma printed_bad h c l p us b : (forall r x, scalar r -> c :: l <> utf8 r ++ x) -> piece h p us (utf8 65533) ->
  printed h l b -> printed h (c :: l) (p ++ b).
Proof.
  intros S (P1 & P2 & P3) (vs & I & P & Z). exists (us ++ vs). split; [auto|]. split; [now apply points_app|].
  rewrite P3. now constructor.
Qed.
Lemma skip_utf8 r x : skipn (length (utf8 r)) (utf8 r ++ x) = x.
Proof. rewrite skipn_app, Nat.sub_diag, skipn_all. reflexivity. Qed.
Lemma first_utf8 r x : firstn (length (utf8 r)) (utf8 r ++ x) = utf8 r.
Proof. rewrite firstn_app, Nat.sub_diag, firstn_all. simpl. apply app_nil_r. Qed.

Lemma encodeLoop_S f html c rest' pending buffer : encodeLoop (S f) html (c :: rest') pending buffer =
          if c <? 128 then
            if 32 <=? c then
              match safeSet html c with
              | [] => encodeLoop f html rest' (pending ++ [c]) buffer
              | hs => encodeLoop f html rest' [] (buffer ++ pending ++ hs)
              end
            else
              match safeSet true c with
              | [] => encodeLoop f html rest' []
                        (buffer ++ pending ++ [92; 117; 48; 48; hexDigit (Z.shiftr c 4); hexDigit (Z.land c 15)])
              | hs => encodeLoop f html rest' [] (buffer ++ pending ++ hs)
              end
          else
            let '(r, size) := decodeRune (c :: rest') in
            if (r =? runeErr) && (size =? 1)%nat then
              encodeLoop f html rest' [] (buffer ++ pending ++ [92; 117; 102; 102; 102; 100])
            else if (r =? 8232) || (r =? 8233) then
              encodeLoop f html (skipn size (c :: rest')) []
                (buffer ++ pending ++ [92; 117; 50; 48; 50; hexDigit (Z.land r 15)])
            else encodeLoop f html (skipn size (c :: rest')) (pending ++ firstn size (c :: rest')) buffer.
Proof. reflexivity. Qed.

Lemma encodeLoop_ok : forall n html rest pending buffer, is_bytes rest -> (length rest < n)%nat ->
  exists body, encodeLoop n html rest pending buffer = Some (buffer ++ pending ++ body) /\ printed html rest body.
Proof.
  induction n as [|n IH]; intros html rest pending buffer B L; [lia|].
  destruct rest as [|c rest'].
  { exists []. split; [simpl; now rewrite app_nil_r|]. exists []. repeat split; try constructor.
    exists []. split; [reflexivity|constructor]. }
  assert (Hc : is_byte c) by now inversion B. unfold is_byte in Hc.
  assert (B' : is_bytes rest') by now inversion B. simpl in L.
  rewrite encodeLoop_S. destruct (Z.ltb_spec c 128).
  - assert (Hu : utf8 c = [c]) by (apply utf8_ascii; lia).
    assert (Sc : scalar c) by (unfold scalar; lia).
    assert (K : forall p us, piece html p us [c] ->
      exists body, encodeLoop n html rest' [] (buffer ++ pending ++ p) = Some (buffer ++ pending ++ body) /\ printed html (c :: rest') body).
    { intros p us P. destruct (IH html rest' [] (buffer ++ pending ++ p) B' ltac:(lia)) as (body & E & Q).
      exists (p ++ body). split; [rewrite E; simpl; now rewrite <- !app_assoc|].
      change (c :: rest') with ([c] ++ rest'). rewrite <- Hu. apply printed_scalar with us; auto. now rewrite Hu. }
    destruct (Z.leb_spec 32 c).
    + destruct (safeSet html c) eqn:E.
      * destruct (safeSet_plain html c ltac:(lia) ltac:(lia) E) as (N1 & N2 & Cl).
        destruct (IH html rest' (pending ++ [c]) buffer B' ltac:(lia)) as (body & E' & Q).
        exists (c :: body). split; [rewrite E', <- !app_assoc; reflexivity|].
        change (c :: rest') with ([c] ++ rest'). change (c :: body) with ([c] ++ body). rewrite <- Hu at 1.
        apply printed_scalar with [UByte c]; auto. split; [|split].
        -- rewrite <- Hu. now apply points_utf8.
        -- intros b vs Hb. simpl. constructor; auto.
        -- intros vs. rewrite Hu. reflexivity.
      * destruct (safeSet_piece html c) as (us & P); [lia|rewrite E; discriminate|].
        rewrite E in P. exact (K _ _ P).
    + rewrite (safeSet_control html c) by lia. destruct (safeSet html c) eqn:E.
      * apply (K _ [UCode c]). rewrite <- Hu.
        apply (piece_code html [48; 48; hexDigit (Z.shiftr c 4); hexDigit (Z.land c 15)]); [|apply hex4_00; lia|lia].
        cbn [forallb]. rewrite land15, Z.shiftr_div_pow2 by lia. rewrite !hexDigit_clean by (change (2 ^ 4) with 16; euc).
        reflexivity.
      * destruct (safeSet_piece html c) as (us & P); [lia|rewrite E; discriminate|].
        rewrite E in P. exact (K _ _ P).
  - destruct (decode_sound c rest' ltac:(lia)) as [[E Hc']|(r & x & S & Ex & E)]; rewrite E.
    + cbn [Z.eqb runeErr Pos.eqb Nat.eqb andb].
      destruct (IH html rest' [] (buffer ++ pending ++ [92; 117; 102; 102; 102; 100]) B' ltac:(lia)) as (body & E' & Q).
      exists ([92; 117; 102; 102; 102; 100] ++ body). split; [rewrite E'; now rewrite <- !app_assoc|].
      apply printed_bad with [UCode 65533]; auto; [now apply decode_bad|].
      apply (piece_code html [102; 102; 102; 100]); [reflexivity| |lia].
      eapply h4'; [apply hex_l|apply hex_l|apply hex_l|apply hex_l|]; reflexivity || lia.
    + assert (R : 128 <= r).
      { destruct (Z.lt_ge_cases r 128); auto. rewrite utf8_ascii in Ex by (unfold scalar in S; lia). simpl in Ex. injection Ex as -> _. lia. }
      assert (Ls : (1 < length (utf8 r))%nat).
      { destruct (utf8_cases r S) as [[D K]|[[D K]|[[D K]|[D K]]]]; rewrite K; simpl; lia. }
      replace ((length (utf8 r) =? 1)%nat) with false by (symmetry; apply Nat.eqb_neq; lia). rewrite andb_false_r.
      rewrite Ex, skip_utf8, first_utf8.
      assert (Bx : is_bytes x) by (unfold is_bytes in *; rewrite Ex in B; now apply Forall_app in B).
      assert (Lx : (length x < n)%nat) by (apply (f_equal (@length Z)) in Ex; rewrite app_length in Ex; simpl in Ex; lia).
      destruct ((r =? 8232) || (r =? 8233)) eqn:C.
      * destruct (IH html x [] (buffer ++ pending ++ [92; 117; 50; 48; 50; hexDigit (Z.land r 15)]) Bx Lx) as (body & E' & Q).
        exists ([92; 117; 50; 48; 50; hexDigit (Z.land r 15)] ++ body). split; [rewrite E'; now rewrite <- !app_assoc|].
        apply printed_scalar with [UCode r]; auto.
        assert (D : r = 8232 \/ r = 8233) by lia.
        apply (piece_code html [50; 48; 50; hexDigit (Z.land r 15)]); [destruct D as [-> | ->]; reflexivity| |lia].
        destruct D as [-> | ->]; (eapply h4'; [apply hex_d|apply hex_d|apply hex_d|apply hex_d|]); reflexivity || (vm_compute; split; congruence) || (simpl; lia).
      * destruct (IH html x (pending ++ utf8 r) buffer Bx Lx) as (body & E' & Q).
        exists (utf8 r ++ body). split; [rewrite E'; now rewrite <- !app_assoc|].
        apply printed_scalar with (map UByte (utf8 r)); auto. split; [|split].
        -- apply points_utf8. unfold clean. repeat split; auto; lia.
        -- intros b vs Hb. apply items_plain; auto. now apply utf8_high.
        -- apply denote_bytes.
Qed.

Theorem encodeString_ok html buffer s : is_bytes s ->
  exists body, encodeString buffer s html = Some (buffer ++ 34 :: body ++ [34]) /\ printed html s body.
Proof.
  intros B. unfold encodeString. destruct (encodeLoop_ok (S (length s)) html s [] (buffer ++ [34]) B ltac:(lia)) as (body & E & P).
  exists body. rewrite E. split; auto. f_equal. simpl. rewrite <- !app_assoc. reflexivity.
Qed.

(** ** Facts about the specification *)
Lemma sanitized_text s s' : sanitized s s' -> utf8_text s'.
Proof. induction 1; constructor; auto. unfold scalar; lia. Qed.
Lemma sanitized_valid s s' : sanitized s s' -> utf8_text s -> s' = s.
Proof.
  intros H. induction H as [|r l l' S H IH|c l l' N H IH]; intros T; auto.
  - f_equal. apply IH. inversion T as [E|r2 l2 S2 T2 E].
    + symmetry in E. apply app_eq_nil in E as [E _]. now apply utf8_nonempty in E.
    + pose proof (decode_scalar r l S) as D. rewrite <- E, decode_scalar in D by auto. injection D as -> _.
      apply app_inv_head in E. now subst.
  - exfalso. inversion T as [|r2 l2 S2 T2 E]. exact (N _ _ S2 (eq_sym E)).
Qed.
Lemma sanitized_fun s a b : sanitized s a -> sanitized s b -> a = b.
Proof.
  intros H. revert b. induction H as [|r l l' S H IH|c l l' N H IH]; intros b Hb.
  - inversion Hb as [E|r2 l2 l2' S2 H2 E|]; auto. apply app_eq_nil in E as [E _]. now apply utf8_nonempty in E.
  - inversion Hb as [E|r2 l2 l2' S2 H2 E|c2 l2 l2' N2 H2 E].
    + symmetry in E. apply app_eq_nil in E as [E _]. now apply utf8_nonempty in E.
    + pose proof (decode_scalar r l S) as D. rewrite <- E, decode_scalar in D by auto. injection D as -> _.
      apply app_inv_head in E. subst. f_equal. auto.
    + exfalso. exact (N2 _ _ S E).
  - inversion Hb as [E|r2 l2 l2' S2 H2 E|c2 l2 l2' N2 H2 E].
    + exfalso. exact (N _ _ S2 (eq_sym E)).
    + subst. f_equal. auto.
Qed.
Lemma sanitized_total s : is_bytes s -> exists s', sanitized s s'.
Proof. intros B. destruct (encodeString_ok true [] s B) as (b & _ & us & _ & _ & Z). eauto. Qed.

(** an encoded code point occurs only at its own place *)
Definition is_cont (c : Z) : Prop := 128 <= c < 192.
Lemma utf8_first x : scalar x -> exists c t, utf8 x = c :: t /\ ~ is_cont c /\ Forall is_cont t.
Proof.
  intros S. unfold is_cont. destruct (utf8_cases x S) as [[D ->]|[[D ->]|[[D ->]|[D ->]]]]; eexists _, _; (split; [reflexivity|]); split;
    try euc; repeat constructor; euc.
Qed.
Lemma utf8_sync x r l a b : scalar x -> scalar r -> utf8 r ++ l = a ++ utf8 x ++ b ->
  (a = [] /\ r = x) \/ exists a', a = utf8 r ++ a' /\ l = a' ++ utf8 x ++ b.
Proof.
  intros Sx Sr E. destruct a as [|c a].
  - left. split; auto. simpl in E. pose proof (decode_scalar r l Sr) as D. rewrite E, decode_scalar in D by auto. congruence.
  - right. destruct (utf8_first r Sr) as (c' & t & Er & _ & Ct). rewrite Er in E. simpl in E. injection E as <- E. rewrite Er.
    destruct (utf8_first x Sx) as (cx & tx & Ex & Nx & _).
    assert (K : forall a, t ++ l = a ++ utf8 x ++ b -> exists a', a = t ++ a' /\ l = a' ++ utf8 x ++ b).
    { clear E Er. induction Ct as [|d t Hd Ct IH]; intros a' E.
      - exists a'. auto.
      - destruct a' as [|d' a'].
        + rewrite Ex in E. simpl in E. injection E as -> _. contradiction.
        + simpl in E. injection E as <- E. destruct (IH _ E) as (a2 & -> & ?). exists a2. auto. }
    destruct (K _ E) as (a' & -> & ->). exists a'. auto.
Qed.
Lemma occurs_point x rs : scalar x -> Forall scalar rs -> occurs (utf8 x) (flat_map utf8 rs) -> In x rs.
Proof.
  intros Sx H (a & b & E). revert a E. induction H as [|r rs Sr H IH]; intros a E.
  - simpl in E. symmetry in E. apply app_eq_nil in E as [_ E]. apply app_eq_nil in E as [E _]. now apply utf8_nonempty in E.
  - simpl in E. destruct (utf8_sync x r _ a b Sx Sr E) as [[_ ->]|(a' & _ & E')]; [now left|right; eauto].
Qed.
