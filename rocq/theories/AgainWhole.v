(** Texts that are decoded can only be read as a whole, for all types. *)
From Coq Require Import String ZArith List Bool Lia Arith Permutation.
From Verif Require Import Base ModelIter ModelStack ModelSkip ModelStr ModelInt ModelFloat ModelRead ModelIterate ModelOps
  ModelFold ModelBase64 Sim SimLib StackFacts Machine SimSkip SimRaw SimStr SimInt SimFloat SimRead SimIterate SimOps SimVal
  NumFacts StrFacts MachineFacts FloatFacts GrammarFacts IntFacts IterateFacts IterFacts ModelVal SpecVal DecFacts DecSound DecComplete
  CutTyped Spec SpecStream TreeFacts EncRound SpecSpell SpellFacts SpellVal SpecOrder OrderFacts.
Import ListNotations.
Local Open Scope Z_scope.

Ltac nows := try solve [let h := fresh in intro h; unfold is_ws in h; lia].
Lemma ws_cut w c r w' c' r' : ws w -> ws w' -> ~ is_ws c -> ~ is_ws c' -> w ++ c :: r = w' ++ c' :: r' -> w = w' /\ c = c' /\ r = r'.
Proof. intros. now apply CutTyped.ws_split. Qed.
Lemma items_prefix b ts : items b ts -> Forall whole ts -> forall b' js r r', elements b' js ->
  b' ++ 93 :: r' = b ++ 93 :: r -> b = b' /\ r = r'.
Proof.
  induction 1 as [w1 t w2 H1 H2|w1 t w2 b ts H1 H2 Hi IH]; intros Hw b' js r r' He E; inversion Hw as [|? ? Ht Hts]; subst;
    inversion He as [w1' t' v w2' H1' Hv H2'|w1' t' v w2' b1 vs H1' Hv H2' He']; subst; repeat (cbn [app] in E; rewrite <- ?app_assoc in E).
  - destruct (Ht w1' w1 t' v (w2' ++ 93 :: r') (w2 ++ 93 :: r)) as [-> K]; auto; [sepw|sepw|].
    apply ws_cut in K; auto; nows. destruct K as (-> & _ & ->). split; auto.
    apply (app_inv_tail (93 :: r)). repeat (cbn [app]; rewrite <- ?app_assoc). now rewrite E.
  - exfalso. destruct (Ht w1' w1 t' v (w2' ++ 44 :: b1 ++ 93 :: r') (w2 ++ 93 :: r)) as [-> K]; auto; [sepw|sepw|].
    apply ws_cut in K; auto; nows. destruct K as (_ & K & _). discriminate.
  - exfalso. destruct (Ht w1' w1 t' v (w2' ++ 93 :: r') (w2 ++ 44 :: b ++ 93 :: r)) as [-> K]; auto; [sepw|sepw|].
    apply ws_cut in K; auto; nows. destruct K as (_ & K & _). discriminate.
  - destruct (Ht w1' w1 t' v (w2' ++ 44 :: b1 ++ 93 :: r') (w2 ++ 44 :: b ++ 93 :: r)) as [-> K]; auto; [sepw|sepw|].
    apply ws_cut in K; auto; nows. destruct K as (-> & _ & K). destruct (IH Hts b1 vs r r' He' K) as [-> ->]. split; auto.
    apply (app_inv_tail (93 :: r')). repeat (cbn [app]; rewrite <- ?app_assoc). now rewrite E.
Qed.
Lemma pairs_prefix b ps : pairs b ps -> Forall kwhole ps -> forall b' ms r r', members b' ms -> b' ++ 125 :: r' = b ++ 125 :: r -> b = b' /\ r = r'.
Proof.
  induction 1 as [w1 k w2 w3 t w4 H1 H2 H3 H4|w1 k w2 w3 t w4 b ps H1 H2 H3 H4 Hi IH]; intros Hw b0 ms r r' He E; inversion Hw as [|? ? [Ht Hk] Hts]; subst; cbn [fst snd] in *;
    inversion He as [w1' b' k' w2' w3' t' v w4' H1' Hb H2' H3' Hv H4'|w1' b' k' w2' w3' t' v w4' b1 vs H1' Hb H2' H3' Hv H4' He']; subst;
    repeat (cbn [app] in E; rewrite <- ?app_assoc in E); assert (E0 := E); apply (key_det _ _ k') in E0; auto; destruct E0 as [-> E0].
  - destruct (Ht w3' w3 t' v (w4' ++ 125 :: r') (w4 ++ 125 :: r)) as [-> K]; auto; [sepw|sepw|].
    apply ws_cut in K; auto; nows. destruct K as (-> & _ & ->). split; auto.
    apply (app_inv_tail (125 :: r)). repeat (cbn [app]; rewrite <- ?app_assoc). now rewrite E.
  - exfalso. destruct (Ht w3' w3 t' v (w4' ++ 44 :: b1 ++ 125 :: r') (w4 ++ 125 :: r)) as [-> K]; auto; [sepw|sepw|].
    apply ws_cut in K; auto; nows. destruct K as (_ & K & _). discriminate.
  - exfalso. destruct (Ht w3' w3 t' v (w4' ++ 125 :: r') (w4 ++ 44 :: b ++ 125 :: r)) as [-> K]; auto; [sepw|sepw|].
    apply ws_cut in K; auto; nows. destruct K as (_ & K & _). discriminate.
  - destruct (Ht w3' w3 t' v (w4' ++ 44 :: b1 ++ 125 :: r') (w4 ++ 44 :: b ++ 125 :: r)) as [-> K]; auto; [sepw|sepw|].
    apply ws_cut in K; auto; nows. destruct K as (-> & _ & K). destruct (IH Hts b1 vs r r' He' K) as [-> ->]. split; auto.
    apply (app_inv_tail (125 :: r')). repeat (cbn [app]; rewrite <- ?app_assoc). now rewrite E.
Qed.
Lemma items_head b ts : items b ts -> (forall t, In t ts -> DecComplete.starts t) -> forall x, exists w c r, b ++ x = w ++ c :: r /\ ws w /\ ~ is_ws c /\ c <> 93.
Proof.
  intros Hi Hs x. inversion Hi as [w1 t w2 H1 H2|w1 t w2 r3 ts' H1 H2 He']; subst; destruct (Hs t (or_introl eq_refl)) as (c & t' & -> & Hc & Hm & _); rewrite <- ?app_assoc; cbn [app];
    exists w1, c; eexists; split; [reflexivity| |reflexivity|]; auto.
Qed.
Lemma elements_head b js : elements b js -> forall x, exists w c r, b ++ x = w ++ c :: r /\ ws w /\ ~ is_ws c /\ c <> 93.
Proof.
  intros Hi x. inversion Hi as [w1 t v w2 H1 Hv H2|w1 t v w2 r3 ts' H1 Hv H2 He']; subst; destruct (starts_value _ _ Hv) as (c & t' & -> & Hc & Hm & _); rewrite <- ?app_assoc; cbn [app];
    exists w1, c; eexists; split; [reflexivity| |reflexivity|]; auto.
Qed.
Lemma array_whole t ts : array_text t ts -> Forall whole ts -> (forall t, In t ts -> DecComplete.starts t) -> whole t.
Proof.
  intros Ha Hw Hs w w' s j r r2 H1 H1' Hv Hr Hr2 E.
  assert (G : exists b, t = 91 :: b) by (destruct Ha; eauto). destruct G as (b & Eb). destruct (starts_value _ _ Hv) as (c & s' & Es & Hc & _).
  rewrite Eb, Es in E. cbn [app] in E. apply ws_cut in E; auto; nows. destruct E as (_ & -> & E).
  inversion Hv as [| | |? Hn| |w0 Hw0|b' vs He| |]; subst; try discriminate.
  - apply number_first in Hn. destruct Hn as (? & ? & [= <- _] & Hn). unfold is_digit in Hn. lia.
  - match goal with H : 91 :: _ = 91 :: _ |- _ => injection H as <- end. rewrite <- !app_assoc in E. cbn [app] in E. inversion Ha as [w3 Hw3|b3 ts3 Hi]; subst.
    + rewrite <- !app_assoc in E. cbn [app] in E. apply ws_cut in E; auto; nows. destruct E as (-> & _ & ->). auto.
    + exfalso. rewrite <- !app_assoc in E. cbn [app] in E. destruct (items_head _ _ Hi Hs (93 :: r2)) as (w1 & c & x & Ex & Hw1 & Hc1 & N). rewrite Ex in E. apply ws_cut in E; auto; nows. destruct E as (_ & K & _). auto.
  - match goal with H : 91 :: _ = 91 :: _ |- _ => injection H as <- end. rewrite <- !app_assoc in E. cbn [app] in E. inversion Ha as [w3 Hw3|b3 ts3 Hi]; subst.
    + exfalso. rewrite <- !app_assoc in E. cbn [app] in E. destruct (elements_head _ _ He (93 :: r)) as (w1 & c & x & Ex & Hw1 & Hc1 & N). rewrite Ex in E. apply ws_cut in E; auto; nows. destruct E as (_ & K & _). auto.
    + rewrite <- !app_assoc in E. cbn [app] in E. destruct (items_prefix _ _ Hi Hw _ _ _ _ He E) as [-> ->]. auto.
Qed.
Lemma object_whole t ps : object_text t ps -> Forall kwhole ps -> whole t.
Proof.
  intros Ha Hw w w' s j r r2 H1 H1' Hv Hr Hr2 E.
  assert (G : exists b, t = 123 :: b) by (destruct Ha; eauto). destruct G as (b & Eb). destruct (starts_value _ _ Hv) as (c & s' & Es & Hc & _).
  rewrite Eb, Es in E. cbn [app] in E. apply ws_cut in E; auto; nows. destruct E as (_ & -> & E).
  inversion Hv as [| | |? Hn| | | |w0 Hw0|b' vs He]; subst; try discriminate.
  - apply number_first in Hn. destruct Hn as (? & ? & [= <- _] & Hn). unfold is_digit in Hn. lia.
  - match goal with H : 123 :: _ = 123 :: _ |- _ => injection H as <- end. rewrite <- !app_assoc in E. cbn [app] in E. inversion Ha as [w3 Hw3|b3 ts3 Hi]; subst.
    + rewrite <- !app_assoc in E. cbn [app] in E. apply ws_cut in E; auto; nows. destruct E as (-> & _ & ->). auto.
    + exfalso. rewrite <- !app_assoc in E. cbn [app] in E.
      assert (K : exists w1 c x, b3 ++ 125 :: r2 = w1 ++ c :: x /\ ws w1 /\ ~ is_ws c /\ c <> 125).
      { assert (Kh : forall p, kwhole p -> exists c k', fst p = c :: k' /\ ~ is_ws c /\ c <> 125).
        { intros p [_ [(bk & sk & -> & _)| ->]]; [exists 34, (bk ++ [34])|exists 110, (bs "ull")]; (split; [reflexivity|]); (split; [nows|discriminate]). }
        inversion Hi; subst; inversion Hw as [|? ? Kp _]; subst; destruct (Kh _ Kp) as (c & k' & Ek & Hc1 & N); cbn [fst] in Ek; subst; rewrite <- ?app_assoc; cbn [app]; eauto 9. }
      destruct K as (w1 & c & x & Ex & Hw1 & Hc1 & N). rewrite Ex in E. apply ws_cut in E; auto; nows. destruct E as (_ & K & _). auto.
  - match goal with H : 123 :: _ = 123 :: _ |- _ => injection H as <- end. rewrite <- !app_assoc in E. cbn [app] in E. inversion Ha as [w3 Hw3|b3 ts3 Hi]; subst.
    + exfalso. rewrite <- !app_assoc in E. cbn [app] in E.
      assert (K : exists w1 x, b' ++ 125 :: r = w1 ++ 34 :: x /\ ws w1) by (inversion He; subst; rewrite <- ?app_assoc; cbn [app]; eauto).
      destruct K as (w1 & x & Ex & Hw1). rewrite Ex in E. apply ws_cut in E; auto; nows. destruct E as (_ & K & _). discriminate.
    + rewrite <- !app_assoc in E. cbn [app] in E. destruct (pairs_prefix _ _ Hi Hw _ _ _ _ He E) as [-> ->]. auto.
Qed.
(** texts in quotes, also with characters that strings may not have *)
Lemma plain_prefix x : Forall (fun c => c <> 34 /\ c <> 92) x -> forall b us r r2, string_items b us -> b ++ 34 :: r = x ++ 34 :: r2 -> b = x /\ r = r2.
Proof.
  induction 1 as [|c x [H1 H2] _ IH]; intros b us r r2 Hb E.
  - destruct Hb; cbn [app] in E; injection E as E; subst; try congruence; auto.
  - destruct Hb as [|c' l us' A B D Hb|e v l us' A Hb|h u l us' A Hb]; cbn [app] in E; injection E as E1 E2; subst; try congruence.
    destruct (IH _ _ _ _ Hb E2) as [-> ->]. auto.
Qed.
Lemma quote_whole x : Forall (fun c => c <> 34 /\ c <> 92) x -> whole (quote x).
Proof.
  intros Hx w w' s j r r2 H1 H1' Hv Hr Hr2 E. destruct (starts_value _ _ Hv) as (c & s' & Es & Hc & _). unfold quote in *.
  rewrite Es in E. cbn [app] in E. apply ws_cut in E; auto; nows. destruct E as (_ & -> & E).
  inversion Hv as [| | |? Hn|b s0 (us & Hb & _)| | | |]; subst; try discriminate.
  - apply number_first in Hn. destruct Hn as (? & ? & [= <- _] & Hn). unfold is_digit in Hn. lia.
  - match goal with H : 34 :: _ = 34 :: _ |- _ => injection H as <- end. rewrite <- !app_assoc in E. cbn [app] in E. destruct (plain_prefix _ Hx _ _ _ _ Hb E) as [-> ->]. auto.
Qed.
Lemma numchar_plain t : Forall numchar t -> Forall (fun c => c <> 34 /\ c <> 92) t.
Proof. apply Forall_impl. unfold numchar. lia. Qed.
Lemma ws_plain w : ws w -> Forall (fun c => c <> 34 /\ c <> 92) w.
Proof. apply Forall_impl. unfold is_ws. lia. Qed.
Lemma word_whole w l : ws w -> Forall (fun c => c <> 34 /\ c <> 92) l -> whole (quote (w ++ l)).
Proof. intros Hw Hl. apply quote_whole, Forall_app. split; auto using ws_plain. Qed.

Section Whole.
Variables F32 F64 : floatOps.
Variable C : custom.
Variable E : env F32 F64 C.
Variables un dis : bool.
Variable sf : Z -> Z.
Variable cs : bool.
Notation lookup := (findField sf cs).
Notation decodes := (decodes F32 F64 C E lookup un dis).
Notation elems := (elems F32 F64 C E lookup un dis).
Notation overwrite := (overwrite F32 F64 C E lookup un dis).
Notation entries := (entries F32 F64 C E lookup un dis).
Notation members := (SpecVal.members F32 F64 C E lookup un dis).
Notation at_path := (at_path F32 F64 C E lookup un dis).
Lemma plain_items x : Forall (fun c => 32 <= c /\ c <> 34 /\ c <> 92) x -> exists s, string_body x s.
Proof.
  intros H. assert (K : exists us, string_items x us) by (induction H as [|c x (A & B & D) _ (us & K)]; eexists; constructor; eauto).
  destruct K as (us & K). exists (denote us), us. auto.
Qed.
Lemma key_quoted k kt key : key_text C k kt key -> (exists b s, kt = quote b /\ string_body b s) \/ kt = bs "null".
Proof.
  induction 1; eauto.
  left. destruct (plain_items t) as (s & K); eauto. match goal with H : int_text _ _ _ |- _ => apply int_text_number, number_chars in H; revert H end. apply Forall_impl. unfold numchar. lia.
Qed.
Theorem whole_decodes :
  (forall T o old t v, decodes T o old t v -> whole t) /\
  (forall T ts vs, elems T ts vs -> Forall whole ts /\ forall t, In t ts -> DecComplete.starts t) /\
  (forall T a ts vs, overwrite T a ts vs -> Forall whole ts /\ forall t, In t ts -> DecComplete.starts t) /\
  (forall k T m ps m', entries k T m ps m' -> Forall kwhole ps) /\
  (forall fs v ps v', members fs v ps v' -> Forall kwhole ps) /\
  (forall path T o v t v', at_path path T o v t v' -> whole t).
Proof.
  assert (Wn : whole (bs "null")) by (eapply value_whole; constructor).
  assert (Wu : forall t, number t -> whole t) by (intros t H; eapply value_whole; constructor; exact H).
  assert (Wq : forall b s, string_body b s -> whole (quote b)) by (intros b s H; eapply value_whole; exact (v_str b s H)).
  apply decodes_mutind; intros; auto; eauto using value_whole.
  1-2: eapply value_whole; constructor.
  1-3: apply word_whole; auto; repeat constructor; discriminate.
  all: try (apply Wu; eapply int_text_number; eassumption).
  all: try (apply quote_whole, numchar_plain, number_chars; eauto using int_text_number; fail).
  all: try (match goal with H : _ /\ (forall t, In t _ -> _) |- whole _ => destruct H; eapply array_whole; eauto end; fail).
  all: try (eapply object_whole; eauto; fail).
  - split; [constructor|intros ? []].
  - match goal with H : _ /\ (forall t, In t _ -> _) |- _ => destruct H as [A B] end. split; [constructor; auto|]. intros t0 [<-|K]; auto. eapply decodes_starts; eauto.
  - match goal with H : Forall (fun t => exists j, value t j) _ |- _ => rename H into Hv end. split; [apply Forall_impl with (2 := Hv); intros t [j Hj]; eapply value_whole; eauto|].
    intros t K. apply (proj1 (Forall_forall _ _) Hv) in K. destruct K as [j Hj]. eapply starts_value; eauto.
  - match goal with H : _ /\ (forall t, In t _ -> _) |- _ => destruct H as [A B] end. split; [constructor; auto|]. intros t0 [<-|K]; auto. eapply decodes_starts; eauto.
  - split; [constructor|intros ? []].
  - constructor; auto. split; auto. cbn [fst]. eapply key_quoted; eauto.
  - constructor; auto. split; [auto|left; cbn; eauto].
  - constructor; auto. split; [eapply value_whole; eauto|left; cbn; eauto].
Qed.
End Whole.
