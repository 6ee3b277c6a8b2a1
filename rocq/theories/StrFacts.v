(** Strings: the pure functions against the grammar and the meaning of escapes. *)
From Coq Require Import String ZArith List Bool Lia Arith.
From Verif Require Import Base ModelIter ModelStack ModelSkip ModelStr Sim SimLib SimSkip SimStr Spec NumFacts.
Import ListNotations.
Local Open Scope Z_scope.

(** ** Finite sweeps over bytes *)
Definition upto (n : nat) : list Z := map Z.of_nat (seq 0 n).
Lemma sweep (P0 : Z -> bool) n : forallb P0 (upto n) = true -> forall x, 0 <= x < Z.of_nat n -> P0 x = true.
Proof.
  intros H x Hx. rewrite forallb_forall in H. apply H. unfold upto. apply in_map_iff.
  exists (Z.to_nat x). split; [lia|]. apply in_seq. lia.
Qed.

(** ** appendRune is UTF-8 *)
Lemma lor_tx y : 0 <= y < 256 -> Z.lor tx (Z.land y maskx) = 128 + y mod 64.
Proof.
  intros H. apply Z.eqb_eq.
  apply (sweep (fun y => Z.lor tx (Z.land y maskx) =? 128 + y mod 64) 256); [reflexivity|lia].
Qed.
Lemma lor_t2 y : 0 <= y < 32 -> Z.lor t2 y = 192 + y.
Proof. intros H. apply Z.eqb_eq. apply (sweep (fun y => Z.lor t2 y =? 192 + y) 32); [reflexivity|lia]. Qed.
Lemma lor_t3 y : 0 <= y < 16 -> Z.lor t3 y = 224 + y.
Proof. intros H. apply Z.eqb_eq. apply (sweep (fun y => Z.lor t3 y =? 224 + y) 16); [reflexivity|lia]. Qed.
Lemma lor_t4 y : 0 <= y < 8 -> Z.lor t4 y = 240 + y.
Proof. intros H. apply Z.eqb_eq. apply (sweep (fun y => Z.lor t4 y =? 240 + y) 8); [reflexivity|lia]. Qed.
Lemma tail_byte y : 0 <= y -> Z.lor tx (Z.land (to_byte y) maskx) = 128 + y mod 64.
Proof.
  intros H. unfold to_byte. rewrite lor_tx by (apply Z.mod_pos_bound; lia).
  f_equal. symmetry. rewrite <- (Znumtheory.Zmod_div_mod 64 256 y); try lia. now exists 4.
Qed.
Definition is_scalar (r : Z) : Prop := 0 <= r < 55296 \/ 57344 <= r <= 1114111.
Lemma appendRune_utf8 b r : is_scalar r -> appendRune b r = b ++ utf8 r.
Proof.
  unfold is_scalar, appendRune, utf8, rune1Max, rune2Max, rune3Max, maxRune, surrogateMin, surrogateMax.
  intros H. rewrite (Z.mod_small r (2 ^ 32)) by lia. cbv zeta.
  rewrite !Z.shiftr_div_pow2 by lia. change (2 ^ 6) with 64. change (2 ^ 12) with 4096. change (2 ^ 18) with 262144.
  assert (D1 : 0 <= r / 64) by (apply Z.div_pos; lia). assert (D2 : 0 <= r / 4096) by (apply Z.div_pos; lia).
  destruct (Z.leb_spec r 127), (Z.ltb_spec r 128); try lia.
  { unfold to_byte. rewrite Z.mod_small by lia. reflexivity. }
  destruct (Z.leb_spec r 2047), (Z.ltb_spec r 2048); try lia.
  { f_equal. rewrite tail_byte by lia. f_equal. unfold to_byte.
    assert (r / 64 < 32) by (apply Z.div_lt_upper_bound; lia). rewrite Z.mod_small, lor_t2 by lia. reflexivity. }
  replace ((1114111 <? r) || ((55296 <=? r) && (r <=? 57343))) with false by lia.
  destruct (Z.leb_spec r 65535), (Z.ltb_spec r 65536); try lia.
  { f_equal. rewrite !tail_byte by lia. f_equal. unfold to_byte.
    assert (r / 4096 < 16) by (apply Z.div_lt_upper_bound; lia). rewrite Z.mod_small, lor_t3 by lia. reflexivity. }
  f_equal. rewrite !tail_byte by lia. f_equal. unfold to_byte.
  assert (0 <= r / 262144) by (apply Z.div_pos; lia).
  assert (r / 262144 < 8) by (apply Z.div_lt_upper_bound; lia). rewrite Z.mod_small, lor_t4 by lia. reflexivity.
Qed.
Lemma appendRune_surrogate b r : utf16_IsSurrogate r = true -> appendRune b r = b ++ utf8 65533.
Proof.
  unfold utf16_IsSurrogate, appendRune, rune1Max, rune2Max, rune3Max, maxRune, surrogateMin, surrogateMax.
  intros H. rewrite (Z.mod_small r (2 ^ 32)) by lia. cbv zeta.
  replace (r <=? 127) with false by lia. replace (r <=? 2047) with false by lia.
  replace ((1114111 <? r) || ((55296 <=? r) && (r <=? 57343))) with true by lia. reflexivity.
Qed.
Lemma decodeRune_pair u v : is_high u = true -> is_low v = true ->
  utf16_DecodeRune u v = 65536 + (u - 55296) * 1024 + (v - 56320).
Proof.
  unfold is_high, is_low, utf16_DecodeRune. intros Hu Hv.
  replace ((55296 <=? u) && (u <? 56320) && (56320 <=? v) && (v <? 57344)) with true by lia.
  rewrite <- Z.lxor_lor; [rewrite <- Z.add_nocarry_lxor; [rewrite Z.shiftl_mul_pow2 by lia; lia|]|].
  1,2: apply Z.bits_inj'; intros n Hn; rewrite Z.land_spec, Z.bits_0;
    destruct (Z.ltb_spec n 10);
    [rewrite Z.shiftl_spec_low by lia; auto|
     replace (v - 56320) with ((v - 56320) mod 2 ^ 10) by (apply Z.mod_small; lia);
     rewrite Z.mod_pow2_bits_high by lia; apply andb_false_r].
Qed.
Lemma decodeRune_other u v : is_high u && is_low v = false -> utf16_DecodeRune u v = 65533.
Proof.
  unfold is_high, is_low, utf16_DecodeRune. intros H.
  replace ((55296 <=? u) && (u <? 56320) && (56320 <=? v) && (v <? 57344)) with false by lia. reflexivity.
Qed.

(** ** Escapes *)
Lemma hex_value c v : hex c v -> hexValue c = v /\ 0 <= v < 16.
Proof.
  unfold hexValue. intros H. destruct H as [x H|x H|x H]; (split; [|lia]).
  - replace ((48 <=? x) && (x <=? 57)) with true by lia. auto.
  - replace ((48 <=? x) && (x <=? 57)) with false by lia.
    replace ((97 <=? x) && (x <=? 102)) with true by lia. lia.
  - replace ((48 <=? x) && (x <=? 57)) with false by lia.
    replace ((97 <=? x) && (x <=? 102)) with false by lia.
    replace ((65 <=? x) && (x <=? 70)) with true by lia. lia.
Qed.
Lemma value_hex c : hexValue c <> invalidHex -> hex c (hexValue c).
Proof.
  unfold hexValue, invalidHex.
  destruct ((48 <=? c) && (c <=? 57)) eqn:E1; [intros _; apply hex_digit; lia|].
  destruct ((97 <=? c) && (c <=? 102)) eqn:E2; [intros _; replace (c - 97 + 10) with (c - 87) by lia; apply hex_lower; lia|].
  destruct ((65 <=? c) && (c <=? 70)) eqn:E3; [intros _; replace (c - 65 + 10) with (c - 55) by lia; apply hex_upper; lia|].
  congruence.
Qed.
Lemma hex_ok c v : hex c v -> (hexValue c =? invalidHex) = false.
Proof. intros H. apply hex_value in H. unfold invalidHex. lia. Qed.
Lemma hex4_range h u : hex4 h u -> 0 <= u < 65536.
Proof. intros [a b c d va vb vc vd Ha Hb Hc Hd]. apply hex_value in Ha, Hb, Hc, Hd. lia. Qed.
Lemma escape_value e v : short_escape e v -> escapeMap e = v /\ (escapeMap e =? noEscape) = false.
Proof. intros []; split; reflexivity. Qed.
Lemma value_escape e : (escapeMap e =? noEscape) = false -> short_escape e (escapeMap e).
Proof.
  unfold escapeMap, noEscape.
  repeat match goal with
  | |- context [if ?a =? ?b then _ else _] => destruct (Z.eqb_spec a b); [subst; constructor|]
  end. discriminate.
Qed.
Lemma noescape_u : (escapeMap 117 =? noEscape) = true.
Proof. reflexivity. Qed.

(** ** readU4 and skipU4 *)
Definition pb_u4 (st : nat * Z) (c : Z) : psres (nat * Z) Z :=
  let '(remain, r) := st in
  if hexValue c =? invalidHex then PFail (EInvalidUnicodeChar c)
  else match remain with
       | 1%nat => PStop 1 (pret (Z.shiftl r 4 + hexValue c))
       | _ => PNext ((remain - 1)%nat, Z.shiftl r 4 + hexValue c)
       end.
Lemma presume_u4 : presume_ok pb_u4.
Proof. intros [n s] c q H. exfalso. revert H. simpl. destruct (hexValue c =? invalidHex); [|destruct n as [|[|n]]]; discriminate. Qed.
Local Opaque Z.shiftl.
Lemma readU4_run f h u r : hex4 h u -> p_readU4 f (h ++ r) = POk u r.
Proof.
  intros [a b c d va vb vc vd Ha Hb Hc Hd].
  change p_readU4 with (p_scan pb_u4 (fun _ => p_eof) (4%nat, 0)). simpl app.
  do 4 (rewrite p_scan_cons by apply presume_u4; simpl pb_u4; erewrite hex_ok by eassumption; cbv iota).
  apply hex_value in Ha, Hb, Hc, Hd. destruct Ha as [-> _], Hb as [-> _], Hc as [-> _], Hd as [-> _].
  unfold pret. cbn [skipn]. f_equal. rewrite !Z.shiftl_mul_pow2 by lia. lia.
Qed.
Lemma readU4_inv f l u r : p_readU4 f l = POk u r -> exists h, hex4 h u /\ l = h ++ r.
Proof.
  change p_readU4 with (p_scan pb_u4 (fun _ => p_eof) (4%nat, 0)).
  destruct l as [|a l]; [discriminate|]. rewrite p_scan_cons by apply presume_u4. simpl pb_u4.
  destruct (Z.eqb_spec (hexValue a) invalidHex) as [|Ha]; [discriminate|]. cbv iota.
  destruct l as [|b l]; [discriminate|]. rewrite p_scan_cons by apply presume_u4. simpl pb_u4.
  destruct (Z.eqb_spec (hexValue b) invalidHex) as [|Hb]; [discriminate|]. cbv iota.
  destruct l as [|c l]; [discriminate|]. rewrite p_scan_cons by apply presume_u4. simpl pb_u4.
  destruct (Z.eqb_spec (hexValue c) invalidHex) as [|Hc]; [discriminate|]. cbv iota.
  destruct l as [|d l]; [discriminate|]. rewrite p_scan_cons by apply presume_u4. simpl pb_u4.
  destruct (Z.eqb_spec (hexValue d) invalidHex) as [|Hd]; [discriminate|]. cbv iota.
  unfold pret. intros [= <- <-]. exists [a; b; c; d]. split; auto.
  apply value_hex in Ha, Hb, Hc, Hd. generalize (h4 _ _ _ _ _ _ _ _ Ha Hb Hc Hd). cbn [skipn].
  rewrite !Z.shiftl_mul_pow2 by lia.
  match goal with |- hex4 _ ?x -> hex4 _ ?y => replace x with y by lia end. auto.
Qed.
Definition pb_su4 (n : nat) (c : Z) : psres nat unit :=
  if hexValue c =? invalidHex then PFail (EInvalidUnicodeChar c)
  else match n with 1%nat => PStop 1 (pret tt) | _ => PNext (n - 1)%nat end.
Lemma presume_su4 : presume_ok pb_su4.
Proof. intros n c q H. exfalso. revert H. unfold pb_su4. destruct (hexValue c =? invalidHex); [|destruct n as [|[|n]]]; discriminate. Qed.
Lemma skipU4_run f h u r : hex4 h u -> p_skipU4 f (h ++ r) = POk tt r.
Proof.
  intros [a b c d va vb vc vd Ha Hb Hc Hd].
  change p_skipU4 with (p_scan pb_su4 (fun _ => p_eof) 4%nat). simpl app.
  do 4 (rewrite p_scan_cons by apply presume_su4; unfold pb_su4 at 1; erewrite hex_ok by eassumption; cbv iota; simpl (_ - _)%nat).
  reflexivity.
Qed.
Lemma skipU4_inv f l r : p_skipU4 f l = POk tt r -> exists h u, hex4 h u /\ l = h ++ r.
Proof.
  change p_skipU4 with (p_scan pb_su4 (fun _ => p_eof) 4%nat).
  destruct l as [|a l]; [discriminate|]. rewrite p_scan_cons by apply presume_su4. unfold pb_su4 at 1.
  destruct (Z.eqb_spec (hexValue a) invalidHex) as [|Ha]; [discriminate|]. cbv iota. simpl (_ - _)%nat.
  destruct l as [|b l]; [discriminate|]. rewrite p_scan_cons by apply presume_su4. unfold pb_su4 at 1.
  destruct (Z.eqb_spec (hexValue b) invalidHex) as [|Hb]; [discriminate|]. cbv iota. simpl (_ - _)%nat.
  destruct l as [|c l]; [discriminate|]. rewrite p_scan_cons by apply presume_su4. unfold pb_su4 at 1.
  destruct (Z.eqb_spec (hexValue c) invalidHex) as [|Hc]; [discriminate|]. cbv iota. simpl (_ - _)%nat.
  destruct l as [|d l]; [discriminate|]. rewrite p_scan_cons by apply presume_su4. unfold pb_su4 at 1.
  destruct (Z.eqb_spec (hexValue d) invalidHex) as [|Hd]; [discriminate|]. cbv iota. simpl (_ - _)%nat.
  unfold pret. intros [= <-]. exists [a; b; c; d]. eexists. split; auto.
  apply value_hex in Ha, Hb, Hc, Hd. exact (h4 _ _ _ _ _ _ _ _ Ha Hb Hc Hd).
Qed.

(** ** Skipping a string *)
Lemma skipString_eq f l : p_skipString f l =
  match l with
  | [] => PErr f
  | c :: r =>
      if c =? cQUOTE then POk tt r
      else if c =? cBSLASH then
        match p_skipEscapedChar f r with POk _ r' => p_skipString f r' | PErr e => PErr e end
      else if c <? cSPACE then PErr (EInvalidStringChar c)
      else p_skipString f r
  end.
Proof.
  unfold p_skipString. destruct l as [|c l]; [reflexivity|].
  rewrite p_scan_cons by apply presume_skipString. unfold pb_skipString at 1.
  destruct (c =? cQUOTE); [reflexivity|]. destruct (c =? cBSLASH).
  - destruct (p_skipEscapedChar f l) as [[] r|]; reflexivity.
  - destruct (c <? cSPACE); reflexivity.
Qed.
Lemma string_items_app b1 us1 b2 us2 :
  string_items b1 us1 -> string_items b2 us2 -> string_items (b1 ++ b2) (us1 ++ us2).
Proof.
  induction 1 as [|c l us H1 H2 H3 H IH|e v l us He H IH|h u l us Hh H IH]; intros Hb; simpl; auto.
  - constructor; auto.
  - constructor; auto.
  - rewrite <- app_assoc. constructor; auto.
Qed.
Lemma skipString_run f b us r : string_items b us -> p_skipString f (b ++ 34 :: r) = POk tt r.
Proof.
  induction 1 as [|c l us H1 H2 H3 H IH|e v l us He H IH|h u l us Hh H IH]; rewrite skipString_eq; simpl app; cbv iota.
  - reflexivity.
  - replace (c =? cQUOTE) with false by lia. replace (c =? cBSLASH) with false by lia.
    replace (c <? cSPACE) with false by lia. auto.
  - cbn [Z.eqb Pos.eqb]. unfold p_skipEscapedChar, pbind, p_peek. destruct (escape_value _ _ He) as [_ ->]. simpl. exact IH.
  - cbn [Z.eqb Pos.eqb]. unfold p_skipEscapedChar, pbind, p_peek, p_inc. rewrite noescape_u. simpl.
    rewrite <- app_assoc. erewrite skipU4_run by eauto. exact IH.
Qed.
Lemma skipEscaped_inv f l r : p_skipEscapedChar f l = POk tt r ->
  exists x us, l = x ++ r /\ string_items (92 :: x) us.
Proof.
  unfold p_skipEscapedChar, pbind, p_peek, p_inc, pfail. destruct l as [|c l]; [discriminate|].
  destruct (escapeMap c =? noEscape) eqn:E; simpl.
  - destruct (Z.eqb_spec c c_u) as [->|]; [|discriminate]. simpl. intros H. apply skipU4_inv in H.
    destruct H as (h & u & Hh & ->). exists (117 :: h), [UCode u]. split; auto.
    replace (92 :: 117 :: h) with (92 :: 117 :: h ++ []) by now rewrite app_nil_r.
    constructor; auto. constructor.
  - intros [= <-]. exists [c], [UEsc (escapeMap c)]. split; auto. constructor; [now apply value_escape|constructor].
Qed.
Lemma skipString_inv f l r : p_skipString f l = POk tt r ->
  exists b us, l = b ++ 34 :: r /\ string_items b us.
Proof.
  remember (length l) as n. revert l Heqn. induction n as [n IH] using lt_wf_ind. intros l -> H.
  rewrite skipString_eq in H. destruct l as [|c l]; [discriminate|].
  destruct (Z.eqb_spec c cQUOTE) as [->|Hq]. { injection H as <-. exists [], []. split; auto. constructor. }
  destruct (Z.eqb_spec c cBSLASH) as [->|Hb].
  - destruct (p_skipEscapedChar f l) as [[] l'|] eqn:E; [|discriminate].
    apply skipEscaped_inv in E. destruct E as (x & us & -> & Hx).
    destruct (IH (length l')) with (l := l') as (b & us' & -> & Hb); auto.
    { simpl. rewrite app_length. lia. }
    exists ((92 :: x) ++ b), (us ++ us'). split; [simpl; now rewrite <- app_assoc|]. now apply string_items_app.
  - destruct (Z.ltb_spec c cSPACE); [discriminate|].
    destruct (IH (length l)) with (l := l) as (b & us' & -> & Hb'); auto.
    exists (c :: b), (UByte c :: us'). split; auto. constructor; auto.
Qed.
Theorem skipString_spec f l r :
  p_skipString f l = POk tt r <-> exists b us, l = b ++ 34 :: r /\ string_items b us.
Proof.
  split; [apply skipString_inv|]. intros (b & us & -> & H). eapply skipString_run; eauto.
Qed.

(** ** Reading a string *)
Lemma string_eq buf f l : p_string buf f l =
  match l with
  | [] => PErr f
  | c :: r =>
      if c <? cSPACE then PErr (EInvalidStringChar c)
      else if c =? cQUOTE then POk buf r
      else if c =? cBSLASH then
        match p_readEscapedChar buf f r with POk b r' => p_string b f r' | PErr e => PErr e end
      else p_string (buf ++ [c]) f r
  end.
Proof.
  unfold p_string. destruct l as [|c l]; [reflexivity|].
  rewrite p_scan_cons by apply presume_string. unfold pb_string at 1. split_ifs; reflexivity.
Qed.
Lemma surrogate_split u : utf16_IsSurrogate u = is_high u || is_low u.
Proof. unfold utf16_IsSurrogate, is_high, is_low. lia. Qed.
Lemma denote_surr u us : utf16_IsSurrogate u = true ->
  match us with UCode v :: _ => is_high u && is_low v = false | _ => True end ->
  denote (UCode u :: us) = utf8 65533 ++ denote us.
Proof.
  rewrite surrogate_split. intros H Hn. cbn [denote]. destruct (is_high u) eqn:E.
  - destruct us as [|[c|c|v] us]; auto. simpl in Hn. now rewrite Hn.
  - simpl in H. now rewrite H.
Qed.
Lemma surr_eq n b u f l : p_readSurrogate (S n) b u f l =
  if utf16_IsSurrogate u then
    match l with
    | [] => PErr f
    | c :: l1 =>
        if negb (c =? cBSLASH) then POk (appendRune b u) l
        else match l1 with
             | [] => PErr f
             | c2 :: l2 =>
                 if negb (c2 =? c_u) then
                   if escapeMap c2 =? noEscape then PErr (EInvalidEscapeChar c2)
                   else POk (appendRune b u ++ [escapeMap c2]) l2
                 else match p_readU4 f l2 with
                      | POk v l3 =>
                          if utf16_DecodeRune u v =? runeError then p_readSurrogate n (appendRune b u) v f l3
                          else POk (appendRune b (utf16_DecodeRune u v)) l3
                      | PErr e => PErr e
                      end
             end
    end
  else POk (appendRune b u) l.
Proof.
  cbn [p_readSurrogate]. destruct (utf16_IsSurrogate u); [|reflexivity].
  destruct l as [|c l]; [reflexivity|]. unfold pbind at 1, p_peek at 1. destruct (negb (c =? cBSLASH)); [reflexivity|].
  unfold pbind at 1, p_inc at 1. destruct l as [|d l]; [reflexivity|].
  unfold pbind at 1, p_peek at 1. cbv beta iota delta [tl].
  destruct (negb (d =? c_u)); [destruct (escapeMap d =? noEscape); reflexivity|].
  unfold pbind at 1, p_inc at 1. unfold pbind at 1. cbv beta iota delta [tl]. destruct (p_readU4 f l); [|reflexivity].
  destruct (utf16_DecodeRune u a =? runeError); reflexivity.
Qed.
Lemma readEscaped_eq b f l : p_readEscapedChar b f l =
  match l with
  | [] => PErr f
  | c :: l1 =>
      if negb (escapeMap c =? noEscape) then POk (b ++ [escapeMap c]) l1
      else if negb (c =? c_u) then PErr (EInvalidEscapeChar c)
      else match p_readU4 f l1 with
           | POk u l2 => p_readSurrogate (S (length l2)) b u f l2
           | PErr e => PErr e
           end
  end.
Proof.
  unfold p_readEscapedChar. destruct l as [|c l]; [reflexivity|]. unfold pbind at 1, p_peek at 1.
  destruct (negb (escapeMap c =? noEscape)); [reflexivity|]. destruct (negb (c =? c_u)); [reflexivity|].
  unfold pbind at 1, p_inc at 1. cbv beta iota delta [tl]. unfold pbind at 1.
  destruct (p_readU4 f l); reflexivity.
Qed.
Global Opaque p_readSurrogate appendRune utf8.
Lemma surr_run fuel : forall f b u l us r,
  0 <= u < 65536 -> string_items l us -> (length (l ++ 34%Z :: r) < fuel)%nat ->
  exists t l' us', p_readSurrogate fuel b u f (l ++ 34 :: r) = POk t (l' ++ 34 :: r) /\
    string_items l' us' /\ (length us' <= length us)%nat /\ t ++ denote us' = b ++ denote (UCode u :: us).
Proof.
  induction fuel as [|n IH]; intros f b u l us r Hu Hl Hf; [lia|]. rewrite surr_eq.
  destruct (utf16_IsSurrogate u) eqn:Es.
  - assert (Hd := appendRune_surrogate b u Es).
    destruct Hl as [|c l us H1 H2 H3 H|e v l us He H|h v l us Hh H].
    + exists (appendRune b u), [], []. split; [reflexivity|]. split; [constructor|]. split; [simpl; lia|].
      rewrite denote_surr by (simpl; auto). now rewrite Hd, <- app_assoc.
    + exists (appendRune b u), (c :: l), (UByte c :: us). split.
      { change ((c :: l) ++ 34 :: r) with (c :: l ++ 34 :: r). cbv iota. replace (c =? cBSLASH) with false by lia. reflexivity. }
      split; [constructor; auto|]. split; [lia|]. rewrite denote_surr by (simpl; auto). now rewrite Hd, <- app_assoc.
    + exists (appendRune b u ++ [v]), l, us. split.
      { change ((92 :: e :: l) ++ 34 :: r) with (92 :: e :: l ++ 34 :: r). cbv iota. cbn [Z.eqb Pos.eqb negb].
        destruct (escape_value _ _ He) as [Ev ->]. rewrite Ev.
        replace (e =? c_u) with false by (destruct He; reflexivity). reflexivity. }
      split; auto. split; [simpl; lia|]. rewrite denote_surr by (simpl; auto). rewrite Hd. cbn [denote].
      now rewrite <- !app_assoc.
    + change ((92 :: 117 :: h ++ l) ++ 34 :: r) with (92 :: 117 :: (h ++ l) ++ 34 :: r). cbv iota.
      cbn [Z.eqb Pos.eqb negb]. rewrite <- app_assoc, (readU4_run _ _ _ _ Hh).
      destruct (is_high u && is_low v) eqn:Ep.
      * apply andb_true_iff in Ep. destruct Ep as [Eu Ev]. rewrite decodeRune_pair by auto.
        assert (Hr : is_scalar (65536 + (u - 55296) * 1024 + (v - 56320))).
        { unfold is_high, is_low, is_scalar in *. lia. }
        replace (_ =? runeError) with false by (unfold is_high, is_low, runeError in *; lia).
        exists (appendRune b (65536 + (u - 55296) * 1024 + (v - 56320))), l, us.
        split; [reflexivity|]. split; auto. split; [simpl; lia|].
        rewrite appendRune_utf8 by auto. cbn [denote]. rewrite Eu, Ev. now rewrite <- app_assoc.
      * rewrite decodeRune_other by auto. replace (65533 =? runeError) with true by reflexivity.
        destruct (IH f (appendRune b u) v l us r (hex4_range _ _ Hh) H) as (t & l' & us' & E & Hl' & Hle & Ht).
        { simpl in Hf. rewrite <- app_assoc, app_length in Hf. lia. }
        exists t, l', us'. split; auto. split; auto. split; [simpl; lia|].
        rewrite Ht. rewrite (denote_surr u) by auto. now rewrite Hd, <- app_assoc.
  - exists (appendRune b u), l, us. split; [reflexivity|]. split; auto. split; auto.
    rewrite appendRune_utf8.
    + rewrite surrogate_split in Es. apply orb_false_iff in Es. destruct Es as [E1 E2].
      cbn [denote]. rewrite E1, E2. now rewrite <- app_assoc.
    + unfold utf16_IsSurrogate, is_scalar in *. lia.
Qed.
Lemma string_run n : forall buf f b us r, (length us <= n)%nat -> string_items b us ->
  p_string buf f (b ++ 34 :: r) = POk (buf ++ denote us) r.
Proof.
  induction n as [n IH] using lt_wf_ind. intros buf f b us r Hn Hb. rewrite string_eq.
  destruct Hb as [|c l us H1 H2 H3 H|e v l us He H|h u l us Hh H]; simpl app; cbv iota.
  - simpl. now rewrite app_nil_r.
  - replace (c =? cQUOTE) with false by lia. replace (c =? cBSLASH) with false by lia.
    replace (c <? cSPACE) with false by lia.
    rewrite (IH (length us) ltac:(simpl in Hn; lia) _ f l us r (le_n _) H). cbn [denote]. now rewrite <- app_assoc.
  - cbn [Z.eqb Pos.eqb Z.ltb Z.compare Pos.compare Pos.compare_cont].
    rewrite readEscaped_eq.
    destruct (escape_value _ _ He) as [Ev ->]. rewrite Ev. cbn [negb].
    rewrite (IH (length us) ltac:(simpl in Hn; lia) _ f l us r (le_n _) H). now rewrite <- app_assoc.
  - cbn [Z.eqb Pos.eqb Z.ltb Z.compare Pos.compare Pos.compare_cont].
    rewrite readEscaped_eq. rewrite noescape_u. cbn [negb Z.eqb Pos.eqb].
    rewrite <- app_assoc, (readU4_run _ _ _ _ Hh).
    destruct (surr_run (S (length (l ++ 34 :: r))) f buf u l us r (hex4_range _ _ Hh) H) as (t & l' & us' & E & Hl' & Hle & Ht); [lia|].
    rewrite E, (IH (length us') ltac:(simpl in Hn; lia) _ f l' us' r (le_n _) Hl'). now rewrite Ht.
Qed.
Lemma surr_inv fuel : forall f b u l t r, p_readSurrogate fuel b u f l = POk t r ->
  exists x us, l = x ++ r /\ string_items x us.
Proof.
  assert (Triv : forall r : bytes, exists x us, r = x ++ r /\ string_items x us).
  { intros r. exists [], []. split; auto. constructor. }
  induction fuel as [|n IH]; intros f b u l t r H; [discriminate|]. rewrite surr_eq in H.
  destruct (utf16_IsSurrogate u); [|injection H as <- <-; apply Triv].
  destruct l as [|c l]; [discriminate|].
  destruct (Z.eqb_spec c cBSLASH) as [->|]; [|injection H as <- <-; apply Triv]. cbn [negb] in H.
  destruct l as [|c l]; [discriminate|].
  destruct (Z.eqb_spec c c_u) as [->|]; cbn [negb] in H.
  - destruct (p_readU4 f l) as [v l'|] eqn:E; [|discriminate]. apply readU4_inv in E. destruct E as (h & Hh & ->).
    destruct (utf16_DecodeRune u v =? runeError).
    + destruct (IH _ _ _ _ _ _ H) as (x & us & -> & Hx). exists (92 :: 117 :: h ++ x), (UCode v :: us).
      split; [simpl; now rewrite <- app_assoc|]. constructor; auto.
    + injection H as <- <-. exists (92 :: 117 :: h ++ []), [UCode v].
      split; [simpl; now rewrite app_nil_r|]. constructor; auto. constructor.
  - destruct (escapeMap c =? noEscape) eqn:E; [discriminate|]. injection H as <- <-.
    exists [92; c], [UEsc (escapeMap c)]. split; auto. constructor; [now apply value_escape|constructor].
Qed.
Lemma readEscaped_inv b f l t r : p_readEscapedChar b f l = POk t r ->
  exists x us, l = x ++ r /\ string_items (92 :: x) us.
Proof.
  rewrite readEscaped_eq. destruct l as [|c l]; [discriminate|].
  destruct (escapeMap c =? noEscape) eqn:E; cbn [negb].
  - destruct (Z.eqb_spec c c_u) as [->|]; [|discriminate]. cbn [negb].
    destruct (p_readU4 f l) as [v l'|] eqn:E4; [|discriminate]. apply readU4_inv in E4.
    destruct E4 as (h & Hh & ->). intros H. apply surr_inv in H. destruct H as (x & us & -> & Hx).
    exists (117 :: h ++ x), (UCode v :: us). split; [simpl; now rewrite <- app_assoc|]. constructor; auto.
  - intros [= <- <-]. exists [c], [UEsc (escapeMap c)]. split; auto.
    constructor; [now apply value_escape|constructor].
Qed.
Lemma string_inv f l : forall buf s r, p_string buf f l = POk s r ->
  exists b us, l = b ++ 34 :: r /\ string_items b us.
Proof.
  remember (length l) as n. revert l Heqn. induction n as [n IH] using lt_wf_ind. intros l -> buf s r H.
  rewrite string_eq in H. destruct l as [|c l]; [discriminate|].
  destruct (Z.ltb_spec c cSPACE); [discriminate|].
  destruct (Z.eqb_spec c cQUOTE) as [->|Hq]. { injection H as <- <-. exists [], []. split; auto. constructor. }
  destruct (Z.eqb_spec c cBSLASH) as [->|Hb].
  - destruct (p_readEscapedChar buf f l) as [b0 l'|] eqn:E; [|discriminate].
    apply readEscaped_inv in E. destruct E as (x & us & -> & Hx).
    destruct (IH (length l')) with (l := l') (buf := b0) (s := s) (r := r) as (b & us' & -> & Hb); auto.
    { simpl. rewrite app_length. lia. }
    exists ((92 :: x) ++ b), (us ++ us'). split; [simpl; now rewrite <- app_assoc|]. now apply string_items_app.
  - destruct (IH (length l)) with (l := l) (buf := buf ++ [c]) (s := s) (r := r) as (b & us' & -> & Hb'); auto.
    exists (c :: b), (UByte c :: us'). split; auto. constructor; auto.
Qed.
Theorem string_spec buf f l s r :
  p_string buf f l = POk s r <-> exists b us, l = b ++ 34 :: r /\ string_items b us /\ s = buf ++ denote us.
Proof.
  split.
  - intros H. destruct (string_inv _ _ _ _ _ H) as (b & us & -> & Hb). exists b, us. split; auto. split; auto.
    rewrite (string_run _ buf f b us r (le_n _) Hb) in H. congruence.
  - intros (b & us & -> & Hb & ->). eapply string_run; eauto.
Qed.
Theorem readString_spec f l s r :
  p_readStringAsSlice f l = POk s r <-> exists b, l = b ++ 34 :: r /\ string_body b s.
Proof.
  unfold p_readStringAsSlice. rewrite string_spec. unfold string_body. simpl. split.
  - intros (b & us & -> & H & ->). exists b. split; auto. eauto.
  - intros (b & -> & us & H & ->). eauto.
Qed.
(** skipping and reading accept the same strings *)
Lemma skipString_body f l r : p_skipString f l = POk tt r <-> exists b s, l = b ++ 34 :: r /\ string_body b s.
Proof.
  rewrite skipString_spec. unfold string_body. split.
  - intros (b & us & -> & H). exists b, (denote us). split; auto. eauto.
  - intros (b & s & -> & us & H & _). eauto.
Qed.
Lemma body_cut b1 s1 b2 s2 r1 r2 : string_body b1 s1 -> string_body b2 s2 ->
  b1 ++ 34 :: r1 = b2 ++ 34 :: r2 -> b1 = b2 /\ s1 = s2 /\ r1 = r2.
Proof.
  intros (u1 & H1 & ->) (u2 & H2 & ->) E.
  assert (R1 := string_run _ [] EEOF b1 u1 r1 (le_n _) H1).
  assert (R2 := string_run _ [] EEOF b2 u2 r2 (le_n _) H2).
  rewrite E, R2 in R1. injection R1 as -> ->. split; auto. now apply app_inv_tail in E.
Qed.
