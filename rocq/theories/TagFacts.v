(** Tags against their specification. *)
From Coq Require Import String ZArith List Bool Lia Arith.
From Verif Require Import Base Spec SpecStream SpecFold ModelRead ModelStream ModelTag StreamStrFacts.
Import ListNotations.
Local Open Scope Z_scope.

Lemma bytes_eqb_iff a : forall b, bytes_eqb a b = true <-> a = b.
Proof.
  induction a as [|x a IH]; intros [|y b]; simpl; try (split; congruence).
  rewrite andb_true_iff, Z.eqb_eq, IH. split; [intros [-> ->]; auto|intros [= -> ->]; auto].
Qed.

Lemma indexComma_some s i : indexComma s = Some i ->
  exists a b, s = a ++ 44 :: b /\ ~ In 44 a /\ firstn i s = a /\ skipn (S i) s = b.
Proof.
  revert i. induction s as [|c s IH]; intros i H; [discriminate|]. simpl in H.
  destruct (Z.eqb_spec c 44) as [->|Hc].
  - injection H as <-. exists [], s. simpl. auto.
  - destruct (indexComma s) as [k|]; [|discriminate]. injection H as <-.
    destruct (IH k eq_refl) as (a & b & -> & Ha & Hf & Hs). exists (c :: a), b. simpl in *.
    repeat split; auto; [intros [?|?]; auto|now rewrite Hf].
Qed.
Lemma indexComma_none s : indexComma s = None -> ~ In 44 s.
Proof.
  induction s as [|c s IH]; intros H; [auto|]. simpl in H. destruct (Z.eqb_spec c 44); [discriminate|].
  destruct (indexComma s); [discriminate|]. intros [?|?]; auto. now apply IH.
Qed.

Theorem parseTag_spec tag name opts : parseTag tag = (name, opts) ->
  ~ In 44 name /\ (tag = name ++ 44 :: opts \/ (tag = name /\ opts = [])).
Proof.
  unfold parseTag. destruct (indexComma tag) as [i|] eqn:E.
  - apply indexComma_some in E. destruct E as (a & b & Et & Ha & -> & ->). intros [= <- <-]. auto.
  - apply indexComma_none in E. intros [= <- <-]. auto.
Qed.
Lemma split_unique a : forall b x y, ~ In 44 a -> ~ In 44 b -> a ++ 44 :: x = b ++ 44 :: y -> a = b /\ x = y.
Proof.
  induction a as [|c a IH]; intros [|d b] x y Ha Hb H; simpl in *.
  - injection H; auto.
  - injection H as <- _. tauto.
  - injection H as -> _. tauto.
  - injection H as -> H. apply IH in H; [|tauto|tauto]. destruct H as [-> ->]. auto.
Qed.
Theorem parseTag_total tag name opts : ~ In 44 name ->
  (tag = name ++ 44 :: opts \/ (tag = name /\ opts = [])) -> parseTag tag = (name, opts).
Proof.
  intros Hn H. destruct (parseTag tag) as [n o] eqn:E. apply parseTag_spec in E. destruct E as [Hn' E].
  destruct H as [->|[-> ->]], E as [E|[E ->]].
  - apply split_unique in E; auto. destruct E as [-> ->]. auto.
  - exfalso. apply Hn'. rewrite <- E. apply in_or_app. simpl. auto.
  - exfalso. apply Hn. rewrite E. apply in_or_app. simpl. auto.
  - now subst.
Qed.

Lemma item_cons a s x : ~ In 44 a -> x <> [] -> (item (a ++ 44 :: s) x <-> x = a \/ item s x).
Proof.
  intros Ha Hx. split.
  - intros (p & q & E & Hc & Hp & Hq). destruct Hp as [->|(p' & ->)].
    + left. simpl in E. destruct Hq as [->|(q' & ->)].
      * rewrite app_nil_r in E. exfalso. apply Hc. rewrite <- E. apply in_or_app. simpl. auto.
      * apply split_unique in E; auto. now destruct E.
    + right. rewrite <- app_assoc in E. simpl in E.
      (* the comma before x is at or after the first comma *)
      assert (K : exists r, p' ++ 44 :: x ++ q = a ++ 44 :: r /\ exists p'', r = p'' ++ x ++ q /\ (p'' = [] \/ exists z, p'' = z ++ [44])).
      { clear - E Ha. revert a E Ha. induction p' as [|c p' IH]; intros a E Ha.
        - destruct a as [|d a]; simpl in *; [injection E as ->; exists (x ++ q); split; auto; exists []; auto|].
          injection E as Ed _. subst d. simpl in Ha. tauto.
        - destruct a as [|d a]; simpl in *.
          + injection E as <- E. exists (p' ++ 44 :: x ++ q). split; auto. exists (p' ++ [44]). rewrite <- app_assoc. simpl. eauto.
          + injection E as <- E. destruct (IH a E) as (r & Er & K); [tauto|]. exists r. split; [now rewrite Er|auto]. }
      destruct K as (r & Er & p'' & -> & Hp). rewrite Er in E. apply split_unique in E; auto. destruct E as [_ ->].
      exists p'', q. auto.
  - intros [->|(p & q & -> & Hc & Hp & Hq)].
    + exists [], (44 :: s). repeat split; eauto.
    + exists (a ++ 44 :: p), q. split; [now rewrite <- app_assoc|]. split; auto. split; auto. right.
      destruct Hp as [->|(p' & ->)]; [exists a; auto|exists (a ++ 44 :: p'); now rewrite <- app_assoc].
Qed.
Lemma item_single s x : ~ In 44 s -> (item s x -> x = s).
Proof.
  intros Hs (p & q & -> & Hc & Hp & Hq).
  destruct Hp as [->|(p' & ->)].
  - destruct Hq as [->|(q' & ->)]; simpl; [now rewrite app_nil_r|]. exfalso. apply Hs. simpl. apply in_or_app. simpl. auto.
  - exfalso. apply Hs. apply in_or_app. left. apply in_or_app. simpl. auto.
Qed.
Lemma contains_loop n : forall s x, (length s < n)%nat -> x <> [] -> (containsLoop n s x = true <-> item s x).
Proof.
  induction n as [|n IH]; intros s x Hl Hx; [lia|]. cbn [containsLoop].
  destruct s as [|c s0] eqn:Es.
  - split; [discriminate|]. intros H. apply item_single in H; [now subst|auto].
  - rewrite <- Es in *. assert (Hne : s <> []) by (subst; discriminate). clear Es. destruct (indexComma s) as [i|] eqn:Ei.
    + apply indexComma_some in Ei. destruct Ei as (a & b & -> & Ha & -> & ->). rewrite item_cons by auto.
      rewrite app_length in Hl. simpl in Hl. rewrite <- (IH b x) by (auto; lia).
      destruct (bytes_eqb a x) eqn:Eb; [apply bytes_eqb_iff in Eb; subst; tauto|].
      split; [auto|]. intros [->|]; auto. rewrite (proj2 (bytes_eqb_iff a a)) in Eb by auto. discriminate.
    + apply indexComma_none in Ei. destruct (bytes_eqb s x) eqn:Eb.
      * apply bytes_eqb_iff in Eb. subst x. split; auto. intros _. exists [], []. rewrite app_nil_r. auto.
      * assert (K : containsLoop n [] x = false) by (destruct n; reflexivity). rewrite K. split; [discriminate|].
        intros H. apply item_single in H; auto. subst. rewrite (proj2 (bytes_eqb_iff s s)) in Eb by auto. discriminate.
Qed.
Theorem Contains_spec o x : x <> [] -> (Contains o x = true <-> item o x).
Proof. intros Hx. apply contains_loop; auto. Qed.

(** ** Code points *)
Lemma cp_exists n : forall l, (length l < n)%nat -> is_bytes l -> exists rs, code_points l rs.
Proof.
  induction n as [|n IH]; intros l Hl B; [lia|]. destruct l as [|c l]; [exists []; constructor|].
  assert (Hc : 0 <= c) by (inversion B; subst; unfold is_byte in *; lia).
  destruct (decode_sound c l Hc) as [[E H]|(r & x & S & Ex & E)].
  - destruct (IH l) as [rs Hr]; [simpl in Hl; lia|now inversion B|]. exists (65533 :: rs). constructor; auto. now apply decode_bad.
  - destruct (IH x) as [rs Hr].
    + apply (f_equal (@length Z)) in Ex. rewrite app_length in Ex. assert (K := utf8_nonempty r S). destruct (utf8 r); [congruence|]. simpl in *. lia.
    + unfold is_bytes in B. rewrite Ex in B. now apply Forall_app in B.
    + exists (r :: rs). rewrite Ex. constructor; auto.
Qed.

(** the function computing them *)
Fixpoint runesF (n : nat) (s : bytes) : list Z :=
  match n with
  | O => []
  | S k => match s with [] => [] | _ => let '(r, z) := decodeRune s in r :: runesF k (skipn z s) end
  end.
Definition runes (s : bytes) : list Z := runesF (length s) s.
Lemma decode_size c l : 0 <= c -> (1 <= snd (decodeRune (c :: l)) <= length (c :: l))%nat.
Proof.
  intros H. destruct (decode_sound c l H) as [[E _]|(r & x & S & Ex & E)]; rewrite E; simpl snd; [simpl; lia|].
  rewrite Ex, app_length. assert (K := utf8_nonempty r S). destruct (utf8 r); [congruence|]. simpl. lia.
Qed.
Lemma bytes_skipn n l : is_bytes l -> is_bytes (skipn n l).
Proof. intros H. unfold is_bytes in *. rewrite <- (firstn_skipn n l) in H. now apply Forall_app in H. Qed.
Lemma runesF_fuel n : forall m s, is_bytes s -> (length s <= n)%nat -> (length s <= m)%nat -> runesF n s = runesF m s.
Proof.
  induction n as [|n IH]; intros [|m] s B Hn Hm; try (destruct s; simpl in *; [reflexivity|lia]); auto.
  destruct s as [|c s]; auto. cbn [runesF]. assert (Hc : 0 <= c) by (inversion B; subst; unfold is_byte in *; lia).
  assert (K := decode_size c s Hc). destruct (decodeRune (c :: s)) as [r z]. simpl snd in K. f_equal.
  apply IH; [now apply bytes_skipn| |]; rewrite skipn_length; cbn [length] in *; lia.
Qed.
Lemma runes_nil : runes [] = []. Proof. reflexivity. Qed.
Lemma runes_cons c s : is_bytes (c :: s) ->
  runes (c :: s) = fst (decodeRune (c :: s)) :: runes (skipn (snd (decodeRune (c :: s))) (c :: s)).
Proof.
  intros B. unfold runes at 1. cbn [length runesF]. assert (Hc : 0 <= c) by (inversion B; subst; unfold is_byte in *; lia).
  assert (K := decode_size c s Hc). destruct (decodeRune (c :: s)) as [r z]. simpl fst. simpl snd in *. f_equal.
  apply runesF_fuel; [now apply bytes_skipn| |auto]; rewrite skipn_length; cbn [length] in *; lia.
Qed.
Lemma decode_bad_inv c l : 0 <= c -> (forall r x, scalar r -> c :: l <> utf8 r ++ x) -> decodeRune (c :: l) = (runeErr, 1%nat) /\ 128 <= c.
Proof.
  intros Hc H. destruct (decode_sound c l Hc) as [K|(r & x & S & Ex & E)]; auto. exfalso. eapply H; eauto.
Qed.
Lemma cp_runes l rs : is_bytes l -> (code_points l rs <-> rs = runes l).
Proof.
  intros B. split.
  - intros H. induction H as [|r l rs Sr H IH|c l rs Hb H IH]; [reflexivity| |].
    + assert (Bl : is_bytes l) by (now apply Forall_app in B).
      assert (K := utf8_nonempty r Sr). destruct (utf8 r ++ l) as [|c t] eqn:Eu; [destruct (utf8 r); [congruence|discriminate]|].
      rewrite runes_cons by auto. rewrite <- Eu, decode_scalar by auto. simpl fst. simpl snd.
      rewrite skipn_app, skipn_all, Nat.sub_diag. simpl. f_equal. now apply IH.
    + assert (Hc : 0 <= c) by (inversion B; subst; unfold is_byte in *; lia).
      rewrite runes_cons by auto. destruct (decode_bad_inv c l Hc Hb) as [-> _]. simpl. f_equal. apply IH. now inversion B.
  - intros ->. destruct (cp_exists (S (length l)) l) as [rs H]; auto.
    assert (E : rs = runes l).
    { clear - B H. induction H as [|r l rs Sr H IH|c l rs Hb H IH]; [reflexivity| |].
    + assert (Bl : is_bytes l) by (now apply Forall_app in B).
      assert (K := utf8_nonempty r Sr). destruct (utf8 r ++ l) as [|c t] eqn:Eu; [destruct (utf8 r); [congruence|discriminate]|].
      rewrite runes_cons by auto. rewrite <- Eu, decode_scalar by auto. simpl fst. simpl snd.
      rewrite skipn_app, skipn_all, Nat.sub_diag. simpl. f_equal. now apply IH.
    + assert (Hc : 0 <= c) by (inversion B; subst; unfold is_byte in *; lia).
      rewrite runes_cons by auto. destruct (decode_bad_inv c l Hc Hb) as [-> _]. simpl. f_equal. apply IH. now inversion B. }
    now rewrite <- E.
Qed.

(** ** isValidTag *)
Section Valid.
Variables isLetter isDigit : Z -> bool.
Notation tag_char := (SpecFold.tag_char isLetter isDigit).
Lemma validLoop_spec n : forall s, is_bytes s -> (length s <= n)%nat ->
  (validLoop isLetter isDigit n s = true <-> Forall tag_char (runes s)).
Proof.
  induction n as [|n IH]; intros s B Hl.
  { destruct s; simpl in *; [split; [constructor|auto]|lia]. }
  destruct s as [|c s]; [split; [constructor|auto]|]. cbn [validLoop]. rewrite runes_cons by auto.
  assert (Hc : 0 <= c) by (inversion B; subst; unfold is_byte in *; lia). assert (K := decode_size c s Hc).
  destruct (decodeRune (c :: s)) as [r z]. cbn [fst snd] in *.
  assert (IH' := IH (skipn z (c :: s)) (bytes_skipn _ _ B) ltac:(rewrite skipn_length; cbn [length] in *; lia)).
  assert (P : existsb (Z.eqb r) tagPunct = true <-> In r (bs "!#$%&()*+-./:<=>?@[]^_{|}~ ")).
  { rewrite existsb_exists. split; [intros (x & Hx & E); apply Z.eqb_eq in E; now subst|]. intros Hx. exists r. split; auto. apply Z.eqb_refl. }
  destruct (existsb (Z.eqb r) tagPunct) eqn:Ep.
  - rewrite IH'. split; [intros H; constructor; auto; left; now apply P|intros H; now inversion H].
  - assert (Hn : ~ In r (bs "!#$%&()*+-./:<=>?@[]^_{|}~ ")) by (intros H; apply P in H; discriminate).
    destruct (negb (isLetter r) && negb (isDigit r)) eqn:En.
    + split; [discriminate|]. intros H. inversion H as [|? ? T _]; subst. apply andb_prop in En. destruct En as [E1 E2].
      apply negb_true_iff in E1, E2. destruct T as [T|[T|T]]; congruence || tauto.
    + rewrite IH'. split; [|intros H; now inversion H]. intros H. constructor; auto. right.
      destruct (isLetter r), (isDigit r); auto.
Qed.
Theorem isValidTag_spec s : is_bytes s ->
  (isValidTag isLetter isDigit s = true <-> s <> [] /\ exists rs, code_points s rs /\ Forall tag_char rs).
Proof.
  intros B. unfold isValidTag. destruct s as [|c s0].
  - split; [discriminate|tauto].
  - assert (Hne : c :: s0 <> []) by discriminate. revert Hne B. generalize (c :: s0) as s. intros s Hne B.
    rewrite validLoop_spec by auto. split.
    + intros H. split; auto. exists (runes s). split; auto. now apply cp_runes.
    + intros (_ & rs & H & F). apply cp_runes in H; auto. now subst.
Qed.
End Valid.
