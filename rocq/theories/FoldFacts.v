(** The folding functions and the find methods against their specification. *)
From Coq Require Import String ZArith List Bool Lia Arith.
From Verif Require Import Base Spec SpecStream SpecFold ModelRead ModelStr ModelStream ModelFold StrFacts StreamStrFacts TagFacts.
Import ListNotations.
Local Open Scope Z_scope.

(** ** ASCII *)
Definition byteRange : list Z := map Z.of_nat (seq 0 256).
Lemma in_byteRange c : is_byte c -> In c byteRange.
Proof.
  intros H. unfold is_byte in H. apply in_map_iff. exists (Z.to_nat c). split; [lia|]. apply in_seq. lia.
Qed.
Lemma mask_table : forallb (fun b => maskCase b =? (if (b / 32) mod 2 =? 1 then b - 32 else b)) byteRange = true.
Proof. vm_compute. reflexivity. Qed.
Lemma mask_eq b : is_byte b -> maskCase b = (if (b / 32) mod 2 =? 1 then b - 32 else b).
Proof.
  intros H. apply in_byteRange in H. apply Z.eqb_eq. exact (proj1 (forallb_forall _ _) mask_table b H).
Qed.
(** the test of two bytes in equalFoldRight *)
Definition byteFold (s t : Z) : bool :=
  if negb (s =? t) then (if isUpper (maskCase s) then negb (negb (maskCase s =? maskCase t)) else false) else true.
Definition other_caseb (a x : Z) : bool :=
  ((65 <=? a) && (a <=? 90) && (x =? a + 32)) || ((97 <=? a) && (a <=? 122) && (x =? a - 32)).
Definition byteFoldSpec (s t : Z) : bool := (t =? s) || other_caseb s t.
Lemma byteFold_table : forallb (fun s => forallb (fun t => Bool.eqb (byteFold s t) (byteFoldSpec s t)) byteRange) byteRange = true.
Proof. vm_compute. reflexivity. Qed.
Lemma byteFold_eq s t : is_byte s -> is_byte t -> byteFold s t = byteFoldSpec s t.
Proof.
  intros Hs Ht. apply in_byteRange in Hs, Ht. apply eqb_prop.
  assert (K := proj1 (forallb_forall _ _) byteFold_table s Hs). exact (proj1 (forallb_forall _ _) K t Ht).
Qed.
(** the test in asciiEqualFold *)
Definition byteFold2 (s t : Z) : bool :=
  if s =? t then true
  else if ((97 <=? s) && (s <=? 122)) || isUpper s then negb (negb (maskCase s =? maskCase t)) else false.
Lemma byteFold2_table : forallb (fun s => forallb (fun t => Bool.eqb (byteFold2 s t) (byteFoldSpec s t)) byteRange) byteRange = true.
Proof. vm_compute. reflexivity. Qed.
Lemma byteFold2_eq s t : is_byte s -> is_byte t -> byteFold2 s t = byteFoldSpec s t.
Proof.
  intros Hs Ht. apply in_byteRange in Hs, Ht. apply eqb_prop.
  assert (K := proj1 (forallb_forall _ _) byteFold2_table s Hs). exact (proj1 (forallb_forall _ _) K t Ht).
Qed.
(** the test in simpleLetterEqualFold, one side a letter *)
Lemma byteFold3_table : forallb (fun s => forallb (fun t =>
    Bool.eqb (maskCase s =? maskCase t) (byteFoldSpec s t) || negb (isUpper (maskCase s) && (s <? 128)) && negb (isUpper (maskCase t) && (t <? 128)))
  byteRange) byteRange = true.
Proof. vm_compute. reflexivity. Qed.
Lemma byteFold3_eq s t : is_byte s -> is_byte t ->
  (isUpper (maskCase s) = true /\ s < 128) \/ (isUpper (maskCase t) = true /\ t < 128) ->
  (maskCase s =? maskCase t) = byteFoldSpec s t.
Proof.
  intros Hs Ht H. apply in_byteRange in Hs, Ht.
  assert (K := proj1 (forallb_forall _ _) byteFold3_table s Hs).
  assert (K2 := proj1 (forallb_forall _ _) K t Ht). cbv beta in K2. apply orb_prop in K2.
  destruct K2 as [K2|K2]; [now apply eqb_prop|]. apply andb_prop in K2. destruct K2 as [K2 K3].
  destruct H as [[H1 H2]|[H1 H2]]; [rewrite H1 in K2|rewrite H1 in K3].
  - replace (s <? 128) with true in K2 by lia. discriminate.
  - replace (t <? 128) with true in K3 by lia. discriminate.
Qed.

Section Facts.
Variable E : Z -> Z -> Prop.
Variable sf : Z -> Z.
Hypothesis FO : folding E.
Hypothesis WK : walks E sf.

Lemma ascii_both a x : 0 <= a < 128 -> 0 <= x < 128 -> (E a x <-> byteFoldSpec a x = true).
Proof.
  intros Ha Hx. rewrite (fo_ascii _ FO) by auto. unfold byteFoldSpec, other_caseb, other_case. lia.
Qed.
Lemma ascii_wide a x : 0 <= a < 128 -> 128 <= x ->
  (E a x <-> ((a = 83 \/ a = 115) /\ x = 383) \/ ((a = 75 \/ a = 107) /\ x = 8490)).
Proof. intros Ha Hx. rewrite (fo_ascii _ FO) by auto. unfold other_case. lia. Qed.

(** ** Walking along an orbit *)
Lemma rank_ex : exists rank : Z -> nat, forall r, (rank r <= 8)%nat /\ (r < sf r -> (rank (sf r) < rank r)%nat).
Proof. destruct WK. auto. Qed.

Lemma orbitTo_in fuel : forall sr tr r, E sr r -> E sr (orbitTo sf fuel sr tr r).
Proof.
  induction fuel as [|n IH]; intros sr tr r H; simpl; auto. destruct (_ && _); auto. apply IH.
  eapply (fo_trans _ FO); [apply H|]. apply (wk_class _ _ WK).
Qed.
Lemma orbitTo_hit rank fuel : (forall r, (rank r <= 8)%nat /\ (r < sf r -> (rank (sf r) < rank r)%nat)) ->
  forall sr tr r, E sr tr -> E sr r -> sr < r <= tr -> (rank r < fuel)%nat -> orbitTo sf fuel sr tr r = tr.
Proof.
  intros Hr. induction fuel as [|n IH]; intros sr tr r Ht Hc Hl Hf; [lia|]. simpl.
  replace (r =? sr) with false by lia. simpl. destruct (Z.ltb_spec r tr); [|lia].
  assert (K : r < sf r <= tr).
  { apply (wk_next _ _ WK); auto. eapply (fo_trans _ FO); [apply (fo_sym _ FO); eauto|auto]. }
  apply IH; auto; [|lia|].
  - eapply (fo_trans _ FO); [apply Hc|]. apply (wk_class _ _ WK).
  - destruct (Hr r) as [_ K2]. specialize (K2 ltac:(lia)). lia.
Qed.
Lemma runeEqualFold_spec a b : 0 <= a -> 0 <= b -> (runeEqualFold sf a b = true <-> E a b).
Proof.
  intros Ha Hb. unfold runeEqualFold. destruct (Z.eqb_spec a b) as [->|Hn].
  { split; auto. intros _. apply (fo_refl _ FO). }
  assert (Sy : E a b <-> E (Z.min a b) (Z.max a b)).
  { destruct (Z.min_spec a b) as [[? ->]|[? ->]], (Z.max_spec a b) as [[? ->]|[? ->]]; try lia; try tauto.
    split; apply (fo_sym _ FO). }
  rewrite Sy. assert (Hl : 0 <= Z.min a b < Z.max a b) by lia. clear Sy. revert Hl. generalize (Z.min a b) (Z.max a b). intros s t Hl.
  destruct (Z.ltb_spec t 128).
  - rewrite ascii_both by lia. unfold isUpper, byteFoldSpec, other_caseb. lia.
  - rewrite Z.eqb_eq. split.
    + intros K. assert (K2 := orbitTo_in orbitFuel s t (sf s) (wk_class _ _ WK s)). now rewrite K in K2.
    + intros K. destruct rank_ex as [rank Hr]. apply (orbitTo_hit rank); auto.
      * apply (wk_class _ _ WK).
      * apply (wk_next _ _ WK); auto. lia.
      * unfold orbitFuel. destruct (Hr (sf s)). lia.
Qed.

(** the smallest member of the class *)
Definition least (r m : Z) : Prop := E r m /\ forall x, E r x -> m <= x.
Lemma sf_max r : ~ r < sf r -> forall x, E r x -> x <= r.
Proof. intros H x Hx. destruct (Z.le_gt_cases x r); auto. exfalso. apply H. apply (wk_next _ _ WK) in Hx; lia. Qed.
Lemma orbitMin_least rank fuel : (forall r, (rank r <= 8)%nat /\ (r < sf r -> (rank (sf r) < rank r)%nat)) ->
  forall r fr, E r fr -> r < fr -> (S (rank fr) < fuel)%nat -> least r (orbitMin sf fuel r fr).
Proof.
  intros Hr. induction fuel as [|n IH]; intros r fr Hc Hl Hf; [lia|]. simpl.
  replace (r <? fr) with true by lia. assert (Hc' : E r (sf fr)).
  { eapply (fo_trans _ FO); [apply Hc|]. apply (wk_class _ _ WK). }
  destruct (Z_lt_dec fr (sf fr)) as [Hlt|Hge].
  - apply IH; auto; [lia|]. destruct (Hr fr) as [_ K]. specialize (K Hlt). lia.
  - assert (Hm : forall x, E fr x -> sf fr <= x) by (apply (wk_wrap _ _ WK), sf_max; auto).
    assert (Hx : forall x, E r x -> sf fr <= x).
    { intros x Hx. apply Hm. eapply (fo_trans _ FO); [apply (fo_sym _ FO); eauto|auto]. }
    destruct n as [|n]; [lia|]. simpl. assert (sf fr <= r) by (apply Hx, (fo_refl _ FO)).
    replace (r <? sf fr) with false by lia. split; auto.
Qed.
Definition minOf (r : Z) : Z := orbitMin sf orbitFuel r (sf r).
Lemma minOf_least r : least r (minOf r).
Proof.
  unfold minOf. destruct rank_ex as [rank Hr]. destruct (Z_lt_dec r (sf r)) as [Hl|Hg].
  - apply (orbitMin_least rank); auto; [apply (wk_class _ _ WK)|]. unfold orbitFuel. destruct (Hr (sf r)). lia.
  - unfold orbitFuel. simpl. replace (r <? sf r) with false by lia. split; [apply (wk_class _ _ WK)|].
    apply (wk_wrap _ _ WK). now apply sf_max.
Qed.
Lemma minOf_iff a b : E a b <-> minOf a = minOf b.
Proof.
  destruct (minOf_least a) as [Ea Ma], (minOf_least b) as [Eb Mb]. split.
  - intros H. assert (minOf a <= minOf b) by (apply Ma; eapply (fo_trans _ FO); eauto).
    assert (minOf b <= minOf a) by (apply Mb; eapply (fo_trans _ FO); [apply (fo_sym _ FO); eauto|auto]). lia.
  - intros H. rewrite H in Ea. eapply (fo_trans _ FO); [apply Ea|]. now apply (fo_sym _ FO).
Qed.

(** ** Strings *)
Lemma fold_equal_runes a b : is_bytes a -> is_bytes b -> (fold_equal E a b <-> Forall2 E (runes a) (runes b)).
Proof.
  intros Ba Bb. split.
  - intros (ra & rb & Ha & Hb & H). apply cp_runes in Ha; auto. apply cp_runes in Hb; auto. now subst.
  - intros H. exists (runes a), (runes b). repeat split; auto; now apply cp_runes.
Qed.
Lemma fold_equal_sym a b : fold_equal E a b -> fold_equal E b a.
Proof.
  intros (ra & rb & Ha & Hb & H). exists rb, ra. repeat split; auto. clear - H FO.
  induction H; constructor; auto. now apply (fo_sym _ FO).
Qed.
Lemma byte_head c s : is_bytes (c :: s) -> is_byte c /\ is_bytes s.
Proof. intros H. inversion H; auto. Qed.
Lemma decode_ascii c s : 0 <= c < 128 -> decodeRune (c :: s) = (c, 1%nat).
Proof.
  intros H. change (c :: s) with ([c] ++ s). rewrite <- (utf8_ascii c H), decode_scalar by (unfold scalar; lia).
  now rewrite utf8_ascii.
Qed.
Lemma decode_wide c s : 128 <= c -> 0 <= c -> 128 <= fst (decodeRune (c :: s)) /\ scalar (fst (decodeRune (c :: s))).
Proof.
  intros H H0. destruct (decode_sound c s H0) as [[-> _]|(r & x & S & Ex & ->)]; simpl fst.
  - unfold runeErr, scalar. lia.
  - split; auto. destruct (Z_lt_dec r 128); [|lia]. rewrite utf8_ascii in Ex by (unfold scalar in S; lia).
    injection Ex as -> _. lia.
Qed.
Lemma runes_ascii c s : is_bytes (c :: s) -> c < 128 -> runes (c :: s) = c :: runes s.
Proof.
  intros B H. rewrite runes_cons by auto. apply byte_head in B. destruct B as [Hc _]. unfold is_byte in Hc.
  rewrite decode_ascii by lia. reflexivity.
Qed.
Lemma runes_scalar n : forall s, (length s <= n)%nat -> is_bytes s -> Forall scalar (runes s).
Proof.
  induction n as [|n IH]; intros s Hl B; destruct s as [|c s]; try (simpl in Hl; lia); try constructor.
  rewrite runes_cons by auto. assert (Hc := B). apply byte_head in Hc. destruct Hc as [Hc _]. unfold is_byte in Hc.
  constructor.
  - destruct (Z_lt_dec c 128); [rewrite decode_ascii by lia; unfold scalar; simpl; lia|]. apply decode_wide; lia.
  - apply IH; [|now apply bytes_skipn]. assert (K := decode_size c s ltac:(lia)). rewrite skipn_length. cbn [length] in *. lia.
Qed.

Lemma equalFoldLoop_spec n : forall s t, is_bytes s -> is_bytes t -> (length s <= n)%nat ->
  (equalFoldLoop sf n s t = true <-> Forall2 E (runes s) (runes t)).
Proof.
  induction n as [|n IH]; intros s t Bs Bt Hl.
  { destruct s; [|simpl in Hl; lia]. destruct t as [|c t]; simpl; [split; [constructor|auto]|].
    split; [discriminate|]. rewrite runes_cons by auto. intros H. inversion H. }
  destruct s as [|c s].
  { destruct t as [|c t]; simpl; [split; [constructor|auto]|].
    split; [discriminate|]. rewrite runes_cons by auto. intros H. inversion H. }
  destruct t as [|d t].
  { simpl. split; [discriminate|]. rewrite runes_cons by auto. intros H. inversion H. }
  cbn [equalFoldLoop]. rewrite !runes_cons by auto.
  assert (Hc := proj1 (byte_head _ _ Bs)). assert (Hd := proj1 (byte_head _ _ Bt)). unfold is_byte in *.
  assert (K1 := decode_size c s ltac:(lia)).
  assert (S1 : scalar (fst (decodeRune (c :: s)))).
  { destruct (Z_lt_dec c 128); [rewrite decode_ascii by lia; unfold scalar; simpl; lia|apply decode_wide; lia]. }
  assert (S2 : scalar (fst (decodeRune (d :: t)))).
  { destruct (Z_lt_dec d 128); [rewrite decode_ascii by lia; unfold scalar; simpl; lia|apply decode_wide; lia]. }
  destruct (decodeRune (c :: s)) as [sr z1]. destruct (decodeRune (d :: t)) as [tr z2]. cbn [fst snd] in *.
  assert (R := runeEqualFold_spec sr tr ltac:(unfold scalar in *; lia) ltac:(unfold scalar in *; lia)).
  assert (IH' := IH (skipn z1 (c :: s)) (skipn z2 (d :: t)) (bytes_skipn _ _ Bs) (bytes_skipn _ _ Bt)
                   ltac:(rewrite skipn_length; cbn [length] in *; lia)).
  destruct (runeEqualFold sf sr tr).
  - rewrite IH'. split; [intros H; constructor; auto; now apply R|intros H; now inversion H].
  - split; [discriminate|]. intros H. inversion H as [|? ? ? ? H1]; subst. apply R in H1. discriminate.
Qed.
Lemma bytesEqualFold_spec s t : is_bytes s -> is_bytes t -> (bytesEqualFold sf s t = true <-> fold_equal E s t).
Proof. intros Bs Bt. rewrite fold_equal_runes by auto. now apply equalFoldLoop_spec. Qed.

Definition ascii (s : bytes) : Prop := Forall (fun c => 0 <= c < 128) s.
Lemma ascii_bytes s : ascii s -> is_bytes s.
Proof. intros H. eapply Forall_impl; [|apply H]. unfold is_byte. simpl. lia. Qed.
Lemma runes_id s : ascii s -> runes s = s.
Proof.
  induction s as [|c s IH]; intros H; auto. assert (B := ascii_bytes _ H). inversion H as [|? ? H1 H2]; subst.
  rewrite runes_ascii by (auto; lia). now rewrite IH.
Qed.

Lemma equalFoldRight_spec s : forall t, ascii s -> is_bytes t -> (equalFoldRight s t = true <-> Forall2 E s (runes t)).
Proof.
  induction s as [|a s IH]; intros t Hs Bt.
  - destruct t as [|d t]; simpl; [split; [constructor|auto]|]. split; [discriminate|]. rewrite runes_cons by auto. intros H. inversion H.
  - destruct t as [|d t]; [simpl; split; [discriminate|intros H; inversion H]|].
    inversion Hs as [|? ? Ha Hs']; subst. assert (Hd := proj1 (byte_head _ _ Bt)). assert (Bt' := proj2 (byte_head _ _ Bt)).
    cbn [equalFoldRight]. destruct (Z.ltb_spec d 128) as [Hd'|Hd'].
    + rewrite runes_ascii by auto. assert (Q : E a d <-> byteFold a d = true).
      { unfold is_byte in *. rewrite byteFold_eq by (unfold is_byte; lia). apply ascii_both; lia. }
      unfold byteFold in Q. assert (IH' := IH t Hs' Bt').
      destruct (negb (a =? d)).
      * destruct (isUpper (maskCase a)).
        -- destruct (maskCase a =? maskCase d); cbn [negb] in *.
           ++ rewrite IH'. split; [intros H; constructor; auto; now apply Q|intros H; now inversion H].
           ++ split; [discriminate|]. intros H. inversion H; subst. assert (false = true) by tauto. discriminate.
        -- split; [discriminate|]. intros H. inversion H; subst. assert (false = true) by tauto. discriminate.
      * rewrite IH'. split; [intros H; constructor; auto; now apply Q|intros H; now inversion H].
    + rewrite runes_cons by auto. destruct (decode_wide d t) as [Hw Hsc]; [lia|unfold is_byte in *; lia|].
      assert (IH' := IH (skipn (snd (decodeRune (d :: t))) (d :: t)) Hs' (bytes_skipn _ _ Bt)).
      destruct (decodeRune (d :: t)) as [tr z]. cbn [fst snd] in *. assert (Q := ascii_wide a tr Ha Hw).
      destruct ((a =? 115) || (a =? 83)) eqn:E1.
      * destruct (Z.eqb_spec tr smallLongEss) as [->|Hn]; cbn [negb].
        -- rewrite IH'. split; [intros H; constructor; auto; apply Q; unfold smallLongEss; left; lia|intros H; now inversion H].
        -- split; [discriminate|]. intros H. inversion H as [|? ? ? ? H1]; subst. apply Q in H1. unfold smallLongEss in *. exfalso. lia.
      * destruct ((a =? 107) || (a =? 75)) eqn:E2.
        -- destruct (Z.eqb_spec tr kelvin) as [->|Hn]; cbn [negb].
           ++ rewrite IH'. split; [intros H; constructor; auto; apply Q; unfold kelvin; right; lia|intros H; now inversion H].
           ++ split; [discriminate|]. intros H. inversion H as [|? ? ? ? H1]; subst. apply Q in H1. unfold kelvin in *. exfalso. lia.
        -- split; [discriminate|]. intros H. inversion H as [|? ? ? ? H1]; subst. apply Q in H1. exfalso. lia.
Qed.

(** no special letter *)
Definition plainc (a : Z) : Prop := 0 <= a < 128 /\ ~ (a = 83 \/ a = 115) /\ ~ (a = 75 \/ a = 107).
Lemma plain_ascii s : Forall plainc s -> ascii s.
Proof. apply Forall_impl. intros a [H _]. exact H. Qed.
Lemma byteFoldSpec_ascii a d : 0 <= a < 128 -> byteFoldSpec a d = true -> 0 <= d < 128.
Proof. unfold byteFoldSpec, other_caseb. lia. Qed.
Lemma plain_spec s : forall t, Forall plainc s -> is_bytes t ->
  (Forall2 E s (runes t) <-> length s = length t /\ Forall2 (fun a b => byteFoldSpec a b = true) s t).
Proof.
  induction s as [|a s IH]; intros t Hs Bt.
  - destruct t as [|d t]; [split; [auto|constructor]|]. rewrite runes_cons by auto. split; [intros H; inversion H|intros [H _]; discriminate].
  - destruct t as [|d t]; [split; [intros H; inversion H|intros [H _]; discriminate]|].
    inversion Hs as [|? ? Ha Hs']; subst. assert (Hd := proj1 (byte_head _ _ Bt)). assert (Bt' := proj2 (byte_head _ _ Bt)).
    destruct Ha as (Ha & Hn1 & Hn2). unfold is_byte in Hd. destruct (Z_lt_dec d 128) as [Hl|Hg].
    + rewrite runes_ascii by auto. split.
      * intros H. inversion H as [|? ? ? ? H1 H2]; subst. apply IH in H2; auto. destruct H2 as [H2 H3].
        split; [simpl; lia|]. constructor; auto. apply ascii_both; auto. lia.
      * intros [H1 H2]. inversion H2; subst. constructor; [apply ascii_both; auto; lia|]. apply IH; auto.
    + rewrite runes_cons by auto. destruct (decode_wide d t) as [Hw _]; [lia|lia|]. split.
      * intros H. inversion H as [|? ? ? ? H1 H2]; subst. apply ascii_wide in H1; auto. exfalso. tauto.
      * intros [H1 H2]. inversion H2 as [|? ? ? ? H3]; subst. apply byteFoldSpec_ascii in H3; auto. lia.
Qed.
Lemma asciiFoldLoop_spec s : forall t, is_bytes s -> is_bytes t -> length s = length t ->
  (asciiFoldLoop s t = true <-> Forall2 (fun a b => byteFoldSpec a b = true) s t).
Proof.
  induction s as [|a s IH]; intros [|d t] Hs Bt Hl; try discriminate; [split; [constructor|auto]|].
  assert (Ha := byte_head _ _ Hs). assert (Hd := byte_head _ _ Bt). injection Hl as Hl.
  assert (IH' := IH t (proj2 Ha) (proj2 Hd) Hl). assert (Q := byteFold2_eq a d (proj1 Ha) (proj1 Hd)). unfold byteFold2 in Q.
  cbn [asciiFoldLoop]. destruct (a =? d).
  { rewrite IH'. split; [intros H; constructor; auto|intros H; now inversion H]. }
  destruct (((97 <=? a) && (a <=? 122)) || isUpper a).
  2:{ split; [discriminate|]. intros H. inversion H; subst. congruence. }
  destruct (maskCase a =? maskCase d); cbn [negb] in *.
  - rewrite IH'. split; [intros H; constructor; auto|intros H; now inversion H].
  - split; [discriminate|]. intros H. inversion H; subst. congruence.
Qed.
Lemma asciiEqualFold_spec s t : is_bytes s -> is_bytes t ->
  (asciiEqualFold s t = true <-> length s = length t /\ Forall2 (fun a b => byteFoldSpec a b = true) s t).
Proof.
  intros Hs Bt. unfold asciiEqualFold. destruct (Nat.eqb_spec (length s) (length t)) as [Hl|Hn]; cbn [negb].
  - rewrite asciiFoldLoop_spec by auto. tauto.
  - split; [discriminate|tauto].
Qed.
Definition isLetterb (a : Z) : Prop := isUpper (maskCase a) = true /\ a < 128.
Lemma simpleFoldLoop_spec s : forall t, is_bytes s -> is_bytes t -> Forall isLetterb s \/ Forall isLetterb t -> length s = length t ->
  (simpleFoldLoop s t = true <-> Forall2 (fun a b => byteFoldSpec a b = true) s t).
Proof.
  induction s as [|a s IH]; intros [|d t] Hs Bt Hp Hl; try discriminate; [split; [constructor|auto]|].
  assert (Ha := byte_head _ _ Hs). assert (Hd := byte_head _ _ Bt). injection Hl as Hl.
  assert (IH' := IH t (proj2 Ha) (proj2 Hd) ltac:(destruct Hp as [H|H]; inversion H; auto) Hl).
  assert (Q := byteFold3_eq a d (proj1 Ha) (proj1 Hd) ltac:(destruct Hp as [H|H]; inversion H as [|? ? HL]; destruct HL; auto)).
  cbn [simpleFoldLoop]. rewrite Q. destruct (byteFoldSpec a d) eqn:Eb; cbn [negb].
  - rewrite IH'. split; [intros H; constructor; auto|intros H; now inversion H].
  - split; [discriminate|]. intros H. inversion H; subst. congruence.
Qed.
Lemma simpleLetterEqualFold_spec s t : is_bytes s -> is_bytes t -> Forall isLetterb s \/ Forall isLetterb t ->
  (simpleLetterEqualFold s t = true <-> length s = length t /\ Forall2 (fun a b => byteFoldSpec a b = true) s t).
Proof.
  intros Hs Bt Hp. unfold simpleLetterEqualFold. destruct (Nat.eqb_spec (length s) (length t)) as [Hl|Hn]; cbn [negb].
  - rewrite simpleFoldLoop_spec by auto. tauto.
  - split; [discriminate|tauto].
Qed.

(** which function foldFunc chooses *)
Lemma foldFuncLoop_cases s : forall nl sp, is_bytes s ->
  (foldFuncLoop sf s nl sp = bytesEqualFold sf /\ Exists (fun c => 128 <= c) s) \/
  (ascii s /\ foldFuncLoop sf s nl sp = equalFoldRight) \/
  (Forall plainc s /\ sp = false /\ foldFuncLoop sf s nl sp = asciiEqualFold) \/
  (Forall plainc s /\ sp = false /\ nl = false /\ Forall isLetterb s /\ foldFuncLoop sf s nl sp = simpleLetterEqualFold).
Proof.
  induction s as [|b s IH]; intros nl sp B.
  - simpl. destruct sp; [right; left; split; [constructor|auto]|]. destruct nl; right; right; [left|right]; repeat split; constructor.
  - assert (Hb := proj1 (byte_head _ _ B)). assert (B' := proj2 (byte_head _ _ B)). cbn [foldFuncLoop].
    destruct (Z.leb_spec 128 b); [left; split; auto|]. unfold is_byte in Hb.
    destruct (isUpper (maskCase b)) eqn:Eu; cbn [negb].
    + destruct ((maskCase b =? 75) || (maskCase b =? 83)) eqn:Es.
      * destruct (IH nl true B') as [(-> & H1)|[(H1 & H2)|[(_ & ? & _)|(_ & ? & _)]]]; try discriminate; [left; auto|].
        right; left. split; [constructor; auto; lia|auto].
      * assert (Hp : plainc b).
        { split; [lia|]. split; intros K; apply orb_false_elim in Es; destruct Es as [E1 E2];
          destruct K as [K|K]; rewrite K in E1, E2; vm_compute in E1, E2; discriminate. }
        destruct (IH nl sp B') as [(-> & H1)|[(H1 & H2)|[(H1 & H2 & H3)|(H1 & H2 & H3 & H4 & H5)]]]; [left; auto| | |].
        -- right; left. split; [constructor; auto; lia|auto].
        -- right; right; left. repeat split; auto.
        -- right; right; right. repeat split; auto. constructor; auto. split; auto.
    + assert (Hp : plainc b).
      { split; [lia|]. split; intros K; destruct K as [K|K]; rewrite K in Eu; vm_compute in Eu; discriminate. }
      destruct (IH true sp B') as [(-> & H1)|[(H1 & H2)|[(H1 & H2 & H3)|(H1 & H2 & H3 & _)]]]; [left; auto| | |discriminate].
      * right; left. split; [constructor; auto; lia|auto].
      * right; right; left. repeat split; auto.
Qed.
Theorem foldFunc_spec n key : is_bytes n -> is_bytes key -> (foldFunc sf n n key = true <-> fold_equal E n key).
Proof.
  intros Bn Bk. unfold foldFunc.
  destruct (foldFuncLoop_cases n false false Bn) as [(-> & _)|[(H1 & ->)|[(H1 & _ & ->)|(H1 & _ & _ & H2 & ->)]]].
  - now apply bytesEqualFold_spec.
  - rewrite fold_equal_runes, runes_id by auto. now apply equalFoldRight_spec.
  - rewrite fold_equal_runes, (runes_id n) by (auto; now apply plain_ascii). rewrite plain_spec by auto. now apply asciiEqualFold_spec.
  - rewrite fold_equal_runes, (runes_id n) by (auto; now apply plain_ascii). rewrite plain_spec by auto.
    apply simpleLetterEqualFold_spec; auto.
Qed.

(** ** The small decoder *)
Lemma firstIndex_some p names : forall i, firstIndex p names = Some i <->
  (exists n, nth_error names i = Some n /\ p n = true) /\ forall j n, (j < i)%nat -> nth_error names j = Some n -> p n = false.
Proof.
  induction names as [|n names IH]; intros i; simpl.
  - split; [discriminate|]. intros [(n & H & _) _]. destruct i; discriminate.
  - destruct (p n) eqn:Ep.
    + split.
      * intros [= <-]. split; [exists n; auto|]. intros j m Hj. lia.
      * intros [_ H]. destruct i as [|i]; auto. rewrite (H 0%nat n) in Ep; [discriminate|lia|auto].
    + destruct (firstIndex p names) as [k|]; simpl.
      * split.
        -- intros [= <-]. destruct (proj1 (IH k) eq_refl) as [H1 H2]. split; auto.
           intros [|j] m Hj Hm; [now injection Hm as <-|]. apply (H2 j); auto. lia.
        -- intros [(m & Hm & Hp) H]. destruct i as [|i]; [injection Hm as <-; congruence|]. f_equal. f_equal.
           assert (K : Some k = Some i); [|now injection K]. apply IH. split; [eauto|]. intros j x Hj. apply (H (S j)). lia.
      * split; [discriminate|]. intros [(m & Hm & Hp) H]. destruct i as [|i]; [injection Hm as <-; congruence|].
        assert (K : None = Some i); [|discriminate]. apply IH. split; [eauto|]. intros j x Hj. apply (H (S j)). lia.
Qed.
Lemma firstIndex_none p names : firstIndex p names = None <-> forall n, In n names -> p n = false.
Proof.
  induction names as [|n names IH]; simpl; [split; auto; intros _ n []|]. destruct (p n) eqn:Ep.
  - split; [discriminate|]. intros H. rewrite (H n) in Ep by auto. discriminate.
  - destruct (firstIndex p names); simpl; split; try discriminate; auto.
    + intros H. assert (K : Some n0 = None); [|discriminate]. apply IH. auto.
    + intros _ m [<-|Hm]; auto. apply IH; auto.
Qed.
Lemma nth_unique (names : list bytes) i j k : NoDup names -> nth_error names i = Some k -> nth_error names j = Some k -> i = j.
Proof.
  intros N Hi Hj. apply (proj1 (NoDup_nth_error names) N); [|congruence]. apply nth_error_Some. congruence.
Qed.
Lemma exact_first names key i : NoDup names ->
  (firstIndex (fun n => bytes_eqb n key) names = Some i <-> exact_match names key i).
Proof.
  intros N. rewrite firstIndex_some. unfold exact_match. split.
  - intros [(n & Hn & Hp) _]. apply bytes_eqb_iff in Hp. now subst.
  - intros H. split; [exists key; split; auto; now apply bytes_eqb_iff|]. intros j n Hj Hn.
    destruct (bytes_eqb n key) eqn:Eb; auto. apply bytes_eqb_iff in Eb. subst. assert (j = i) by (eapply nth_unique; eauto). lia.
Qed.
Lemma exact_none names key : firstIndex (fun n => bytes_eqb n key) names = None <-> ~ In key names.
Proof.
  rewrite firstIndex_none. split.
  - intros H K. apply H in K. rewrite (proj2 (bytes_eqb_iff key key)) in K by auto. discriminate.
  - intros H n Hn. destruct (bytes_eqb n key) eqn:Eb; auto. apply bytes_eqb_iff in Eb. now subst.
Qed.
Lemma in_nth (names : list bytes) i k : nth_error names i = Some k -> In k names.
Proof. apply nth_error_In. Qed.
Theorem findSmall_spec names key cs i : NoDup names -> Forall is_bytes names -> is_bytes key ->
  (findSmall sf names key cs = Some i <-> matches E names key cs i).
Proof.
  intros N B Bk. unfold findSmall, matches. destruct (firstIndex (fun n => bytes_eqb n key) names) as [k|] eqn:Ex.
  - assert (Hk := proj1 (exact_first _ _ _ N) Ex). split.
    + intros [= <-]. auto.
    + intros [H|[_ [H _]]]; [f_equal; eapply nth_unique; eauto|]. exfalso. apply H. eapply in_nth; eauto.
  - assert (Hn := proj1 (exact_none _ _) Ex).
    assert (Hx : ~ exact_match names key i) by (intros H; apply Hn; eapply in_nth; eauto).
    destruct cs; [split; [discriminate|intros [H|[? _]]; [tauto|discriminate]]|].
    rewrite firstIndex_some. unfold fold_match.
    assert (Q : forall n, In n names -> (foldFunc sf n n key = true <-> fold_equal E n key)).
    { intros n Hi. apply foldFunc_spec; auto. eapply (proj1 (Forall_forall _ _) B); eauto. }
    split.
    + intros [(n & H1 & H2) H3]. right. split; auto. split; auto. split; [exists n; split; auto; apply Q; auto; eapply in_nth; eauto|].
      intros j m Hj Hm K. apply Q in K; [|eapply in_nth; eauto]. rewrite (H3 j m Hj Hm) in K. discriminate.
    + intros [H|[_ (_ & (n & H1 & H2) & H3)]]; [tauto|]. split; [exists n; split; auto; apply Q; auto; eapply in_nth; eauto|].
      intros j m Hj Hm. specialize (H3 j m Hj Hm). destruct (foldFunc sf m m key) eqn:Ef; auto. exfalso. apply H3. apply Q; auto.
      eapply in_nth; eauto.
Qed.

(** ** The general decoder *)
Lemma utf8_app_inj a b x y : scalar a -> scalar b -> utf8 a ++ x = utf8 b ++ y -> a = b /\ x = y.
Proof.
  intros Sa Sb H. assert (K := f_equal decodeRune H). rewrite !decode_scalar in K by auto. injection K as -> _.
  split; auto. now apply app_inv_head in H.
Qed.
Lemma flat_utf8_inj a : forall b, Forall scalar a -> Forall scalar b -> flat_map utf8 a = flat_map utf8 b -> a = b.
Proof.
  induction a as [|x a IH]; intros [|y b] Ha Hb H; auto; inversion Ha; inversion Hb; subst; simpl in H.
  - assert (K := utf8_nonempty y ltac:(auto)). destruct (utf8 y); [congruence|discriminate].
  - assert (K := utf8_nonempty x ltac:(auto)). destruct (utf8 x); [congruence|discriminate].
  - apply utf8_app_inj in H; auto. destruct H as [-> H]. f_equal. auto.
Qed.
Lemma minOf_scalar r : scalar r -> scalar (minOf r).
Proof. intros H. destruct (minOf_least r) as [K _]. eapply (fo_scalar _ FO); eauto. Qed.
Lemma minOf_scalars l : Forall scalar l -> Forall scalar (map minOf l).
Proof. induction 1; constructor; auto. now apply minOf_scalar. Qed.
Lemma toUpperLoop_eq n : forall s out, is_bytes s -> (length s <= n)%nat ->
  toUpperLoop sf n s out = out ++ flat_map utf8 (map minOf (runes s)).
Proof.
  induction n as [|n IH]; intros s out B Hl.
  { destruct s; [simpl; now rewrite app_nil_r|simpl in Hl; lia]. }
  destruct s as [|c s]; [simpl; now rewrite app_nil_r|]. cbn [toUpperLoop]. rewrite runes_cons by auto.
  assert (Hc := proj1 (byte_head _ _ B)). unfold is_byte in Hc. assert (K := decode_size c s ltac:(lia)).
  assert (S1 : scalar (fst (decodeRune (c :: s)))).
  { destruct (Z_lt_dec c 128); [rewrite decode_ascii by lia; unfold scalar; simpl; lia|apply decode_wide; lia]. }
  destruct (decodeRune (c :: s)) as [r z]. cbn [fst snd] in *.
  rewrite IH; [|now apply bytes_skipn|rewrite skipn_length; cbn [length] in *; lia].
  fold (minOf r). rewrite appendRune_utf8; [|apply minOf_scalar in S1; unfold is_scalar, scalar in *; lia].
  cbn [map flat_map]. now rewrite <- app_assoc.
Qed.
Lemma toUpper_iff a b : is_bytes a -> is_bytes b -> (toUpper sf a [] = toUpper sf b [] <-> fold_equal E a b).
Proof.
  intros Ba Bb. unfold toUpper. rewrite !toUpperLoop_eq by auto. rewrite fold_equal_runes by auto. cbn [app].
  assert (Sa := runes_scalar _ _ (le_n _) Ba). assert (Sb := runes_scalar _ _ (le_n _) Bb).
  revert Sa Sb. generalize (runes a) (runes b). clear - FO WK. intros x y Sx Sy. split.
  - intros H. apply flat_utf8_inj in H.
    2: now apply minOf_scalars. 2: now apply minOf_scalars.
    revert y Sy H. induction x as [|r x IH]; intros [|q y] Sy H; try discriminate; constructor.
    + apply minOf_iff. now injection H.
    + inversion Sx; inversion Sy; subst. apply IH; auto. now injection H.
  - intros H. f_equal. induction H; auto. cbn [map]. f_equal; [now apply minOf_iff|].
    inversion Sx; inversion Sy; subst; auto.
Qed.
Lemma toUpper_app key buf : is_bytes key -> skipn (length buf) (toUpper sf key buf) = toUpper sf key [].
Proof.
  intros B. unfold toUpper. rewrite !toUpperLoop_eq by auto. rewrite skipn_app, skipn_all, Nat.sub_diag. reflexivity.
Qed.

Lemma indexGet_set m k i k' : indexGet (indexSet m k i) k' = if bytes_eqb k k' then Some i else indexGet m k'.
Proof.
  induction m as [|[k0 i0] m IH]; simpl.
  - reflexivity.
  - destruct (bytes_eqb k0 k) eqn:E0; simpl.
    + apply bytes_eqb_iff in E0. subst. destruct (bytes_eqb k k'); auto.
    + rewrite IH. destruct (bytes_eqb k0 k') eqn:E1; auto. apply bytes_eqb_iff in E1. subst.
      destruct (bytes_eqb k k') eqn:E2; auto. apply bytes_eqb_iff in E2. subst.
      rewrite (proj2 (bytes_eqb_iff k' k')) in E0 by auto. discriminate.
Qed.
(** the state of the two maps after adding [names] *)
Lemma df_build_spec names :
  df_len (df_build sf names) = length names /\
  (forall k i, indexGet (df_nameIndex (df_build sf names)) k = Some i ->
     nth_error names i = Some k) /\
  (forall k, indexGet (df_nameIndex (df_build sf names)) k = None -> ~ In k names) /\
  (forall u, indexGet (df_nameIndexUpper (df_build sf names)) u =
     firstIndex (fun n => bytes_eqb (toUpper sf n []) u) names).
Proof.
  unfold df_build. induction names as [|n names IH] using rev_ind.
  { simpl. repeat split; auto; intros; discriminate. }
  rewrite fold_left_app. cbn [fold_left]. destruct IH as (H1 & H2 & H3 & H4).
  set (df := fold_left (df_add sf) names df_init) in *. unfold df_add at 1 2 3 4. cbn [df_len df_nameIndex df_nameIndexUpper].
  assert (FI : forall p, firstIndex p (names ++ [n]) = match firstIndex p names with Some i => Some i | None => if p n then Some (length names) else None end).
  { intros p. clear. induction names as [|m names IH]; simpl; [destruct (p n); auto|]. destruct (p m); auto. rewrite IH.
    destruct (firstIndex p names); auto. destruct (p n); auto. }
  split; [rewrite app_length; simpl; lia|]. split; [|split].
  - intros k i. rewrite indexGet_set. destruct (bytes_eqb n k) eqn:Eb.
    + apply bytes_eqb_iff in Eb. subst k. intros [= <-]. rewrite H1, nth_error_app2 by lia. now rewrite Nat.sub_diag.
    + intros H. apply H2 in H. rewrite nth_error_app1; auto. apply nth_error_Some. congruence.
  - intros k. rewrite indexGet_set. destruct (bytes_eqb n k) eqn:Eb; [discriminate|]. intros H K. apply in_app_or in K.
    destruct K as [K|[<-|[]]]; [eapply H3; eauto|]. rewrite (proj2 (bytes_eqb_iff n n)) in Eb by auto. discriminate.
  - intros u. rewrite FI. rewrite <- H4.
    destruct (indexGet (df_nameIndexUpper df) (toUpper sf n [])) as [i|] eqn:Eg.
    + destruct (indexGet (df_nameIndexUpper df) u) eqn:Eu; auto. destruct (bytes_eqb (toUpper sf n []) u) eqn:Eb; auto.
      apply bytes_eqb_iff in Eb. congruence.
    + rewrite indexGet_set, H1. destruct (bytes_eqb (toUpper sf n []) u) eqn:Eb.
      * apply bytes_eqb_iff in Eb. subst u. now rewrite Eg.
      * destruct (indexGet (df_nameIndexUpper df) u); auto.
Qed.
Theorem findLarge_spec names key buf cs i : NoDup names -> Forall is_bytes names -> is_bytes key ->
  (findLarge sf names key buf cs = Some i <-> matches E names key cs i).
Proof.
  intros N B Bk. unfold findLarge, matches. destruct (df_build_spec names) as (_ & H2 & H3 & H4).
  destruct (indexGet (df_nameIndex (df_build sf names)) key) as [k|] eqn:Ex.
  - apply H2 in Ex. split.
    + intros [= <-]. auto.
    + intros [H|[_ [H _]]]; [f_equal; eapply nth_unique; eauto|]. exfalso. apply H. eapply in_nth; eauto.
  - apply H3 in Ex. assert (Hx : ~ exact_match names key i) by (intros H; apply Ex; eapply in_nth; eauto).
    destruct cs; [split; [discriminate|intros [H|[? _]]; [tauto|discriminate]]|].
    rewrite toUpper_app by auto. rewrite H4, firstIndex_some. unfold fold_match.
    assert (Q : forall n, In n names -> (bytes_eqb (toUpper sf n []) (toUpper sf key []) = true <-> fold_equal E n key)).
    { intros n Hi. rewrite bytes_eqb_iff. apply toUpper_iff; auto. eapply (proj1 (Forall_forall _ _) B); eauto. }
    split.
    + intros [(n & K1 & K2) K3]. right. split; auto. split; auto. split; [exists n; split; auto; apply Q; auto; eapply in_nth; eauto|].
      intros j m Hj Hm K. apply Q in K; [|eapply in_nth; eauto]. rewrite (K3 j m Hj Hm) in K. discriminate.
    + intros [H|[_ (_ & (n & K1 & K2) & K3)]]; [tauto|]. split; [exists n; split; auto; apply Q; auto; eapply in_nth; eauto|].
      intros j m Hj Hm. specialize (K3 j m Hj Hm). destruct (bytes_eqb _ _) eqn:Ef; auto. exfalso. apply K3. apply Q; auto.
      eapply in_nth; eauto.
Qed.

(** ** The one-field decoder *)
Lemma fold_refl a : is_bytes a -> fold_equal E a a.
Proof.
  intros B. apply fold_equal_runes; auto. generalize (runes a). clear - FO. intros l. induction l; constructor; auto. apply (fo_refl _ FO).
Qed.
(** swapped arguments: fine as long as the key has neither a long s nor a Kelvin sign *)
Lemma byteFoldSpec_sym a b : 0 <= a < 128 \/ 0 <= b < 128 -> byteFoldSpec a b = byteFoldSpec b a.
Proof. unfold byteFoldSpec, other_caseb. lia. Qed.
Lemma equalFoldRight_ascii s : forall t, is_bytes s -> ascii t -> (equalFoldRight s t = true <-> Forall2 (fun a b => byteFoldSpec a b = true) s t).
Proof.
  induction s as [|a s IH]; intros t Hs Bt.
  - destruct t as [|d t]; simpl; [split; [constructor|auto]|]. split; [discriminate|]. intros H. inversion H.
  - destruct t as [|d t]; [simpl; split; [discriminate|intros H; inversion H]|].
    inversion Bt as [|? ? Hd Bt']; subst. destruct (byte_head _ _ Hs) as [Ha Hs'].
    cbn [equalFoldRight]. replace (d <? 128) with true by lia.
    assert (Q := byteFold_eq a d Ha ltac:(unfold is_byte; lia)). unfold byteFold in Q. assert (IH' := IH t Hs' Bt').
    destruct (negb (a =? d)).
    + destruct (isUpper (maskCase a)).
      * destruct (maskCase a =? maskCase d); cbn [negb] in *.
        -- rewrite IH'. split; [intros H; constructor; auto|intros H; now inversion H].
        -- split; [discriminate|]. intros H. inversion H; subst. congruence.
      * split; [discriminate|]. intros H. inversion H; subst. congruence.
    + rewrite IH'. split; [intros H; constructor; auto|intros H; now inversion H].
Qed.
Lemma Forall2_len {A B} (R : A -> B -> Prop) l l' : Forall2 R l l' -> length l = length l'.
Proof. induction 1; simpl; auto. Qed.
(** folding to an ASCII name, for a key without the two special characters, is byte-wise *)
Lemma ascii_fold n key : ascii n -> is_bytes key -> no_special key ->
  (fold_equal E n key <-> Forall2 (fun a b => byteFoldSpec a b = true) key n).
Proof.
  intros Hn Bk Hs. rewrite fold_equal_runes by (auto; now apply ascii_bytes). rewrite (runes_id n Hn).
  assert (Sp := Hs (runes key) (proj2 (cp_runes key _ Bk) eq_refl)). clear Hs.
  revert n Hn. remember (length key) as k eqn:Ek. assert (Hk : (length key <= k)%nat) by lia. clear Ek.
  revert key Bk Sp Hk. induction k as [|k IH]; intros key Bk Sp Hk n Hn.
  { destruct key; [|simpl in Hk; lia]. rewrite runes_nil. split; intros H; inversion H; constructor. }
  destruct key as [|d key]. { rewrite runes_nil. split; intros H; inversion H; constructor. }
  destruct (byte_head _ _ Bk) as [Hd Bk']. unfold is_byte in Hd. destruct (Z_lt_dec d 128) as [Hl|Hg].
  - rewrite runes_ascii in * by auto. destruct n as [|a n]; [split; intros H; inversion H|]. inversion Hn as [|? ? Ha Hn']; subst.
    assert (IH' : Forall2 E n (runes key) <-> Forall2 (fun a b => byteFoldSpec a b = true) key n).
    { apply IH; auto; [simpl in Sp; tauto|simpl in Hk; lia]. }
    assert (Q := ascii_both a d Ha ltac:(lia)). rewrite byteFoldSpec_sym in Q by lia.
    split; intros H; inversion H; subst; constructor; tauto.
  - rewrite runes_cons in * by auto. destruct (decode_wide d key) as [Hw _]; [lia|lia|].
    destruct n as [|a n]; [split; intros H; inversion H|]. inversion Hn as [|? ? Ha Hn']; subst. split; intros H; exfalso.
    + inversion H as [|? ? ? ? H1 H2]; subst. apply ascii_wide in H1; auto. simpl in Sp. lia.
    + inversion H as [|? ? ? ? H1 H2]; subst. rewrite byteFoldSpec_sym in H1 by auto. apply byteFoldSpec_ascii in H1; auto. lia.
Qed.
Theorem findOne_spec name key cs i : is_bytes name -> is_bytes key -> no_special key ->
  (findOne sf name key cs = Some i <-> matches E [name] key cs i).
Proof.
  intros Bn Bk Hs. unfold findOne, matches. destruct cs.
  - destruct (bytes_eqb key name) eqn:Eb.
    + apply bytes_eqb_iff in Eb. subst. split; [intros [= <-]; left; reflexivity|]. intros [H|[H _]]; [|discriminate].
      unfold exact_match in H. destruct i as [|[|i]]; auto; discriminate.
    + split; [discriminate|]. intros [H|[H _]]; [|discriminate]. unfold exact_match in H. destruct i as [|[|i]]; try discriminate.
      injection H as ->. rewrite (proj2 (bytes_eqb_iff key key)) in Eb by auto. discriminate.
  - assert (Q : foldFunc sf name key name = true <-> fold_equal E name key).
    { unfold foldFunc.
      destruct (foldFuncLoop_cases name false false Bn) as [(-> & _)|[(H1 & ->)|[(H1 & _ & ->)|(H1 & _ & _ & H2 & ->)]]].
      - rewrite bytesEqualFold_spec by auto. split; apply fold_equal_sym.
      - rewrite ascii_fold by auto. now apply equalFoldRight_ascii.
      - rewrite ascii_fold by (auto; now apply plain_ascii). rewrite asciiEqualFold_spec by auto.
        split; [tauto|]. intros H. split; auto. eapply Forall2_len; eauto.
      - rewrite ascii_fold by (auto; now apply plain_ascii). rewrite simpleLetterEqualFold_spec by auto.
        split; [tauto|]. intros H. split; auto. eapply Forall2_len; eauto. }
    destruct (foldFunc sf name key name).
    + assert (F : fold_equal E name key) by tauto. split.
      * intros [= <-]. destruct (list_eq_dec Z.eq_dec name key) as [->|Hn]; [left; reflexivity|]. right. split; auto. split; [|split].
        -- intros [H|[]]. auto.
        -- exists name. auto.
        -- intros j n Hj. lia.
      * intros [H|[_ (_ & (n & H & _) & _)]]; destruct i as [|[|i]]; auto; discriminate.
    + split; [discriminate|]. intros H. exfalso. assert (F : fold_equal E name key); [|apply Q in F; discriminate].
      destruct H as [H|[_ (_ & (n & H & Hf) & _)]]; destruct i as [|[|i]]; try discriminate.
      * injection H as ->. now apply fold_refl.
      * injection H as ->. auto.
Qed.
(** the case without folding is exact *)
Theorem findOne_exact name key i : findOne sf name key true = Some i <-> (i = O /\ key = name).
Proof.
  unfold findOne. destruct (bytes_eqb key name) eqn:Eb.
  - apply bytes_eqb_iff in Eb. split; [intros [= <-]; auto|intros [-> _]; auto].
  - split; [discriminate|]. intros [_ H]. apply bytes_eqb_iff in H. congruence.
Qed.
End Facts.
