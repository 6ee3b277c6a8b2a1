(** Typed decoding consumes what Skip consumes. *)
From Coq Require Import String ZArith List Bool Lia Arith Permutation.
From Verif Require Import Base ModelIter ModelStack ModelSkip ModelStr ModelInt ModelFloat ModelRead ModelIterate ModelOps
  ModelFold ModelBase64 Sim SimLib StackFacts Machine SimSkip SimRaw SimStr SimInt SimFloat SimRead SimIterate SimOps SimVal
  NumFacts StrFacts MachineFacts FloatFacts GrammarFacts IntFacts IterateFacts IterFacts ModelVal SpecVal DecFacts DecSound DecComplete
  CutTyped Spec SpecStream TreeFacts EncRound SpecSpell SpellFacts SpellVal SpecOrder OrderFacts AgainWhole.
Import ListNotations.
Local Open Scope Z_scope.

(** no JSON value begins like [s] and is longer or shorter *)
Definition firm (s : bytes) : Prop := forall w w' t j r r2, ws w -> ws w' -> value t j -> w ++ t ++ r = w' ++ s ++ r2 -> t = s /\ r = r2.
Lemma array_firm t ts : array_text t ts -> Forall whole ts -> (forall t, In t ts -> DecComplete.starts t) -> firm t.
Proof.
  intros Ha Hw Hs w w' s j r r2 H1 H1' Hv E.
  assert (G : exists b, t = 91 :: b) by (destruct Ha; eauto). destruct G as (b & Eb). destruct (starts_value _ _ Hv) as (c & s' & Es & Hc & _).
  rewrite Eb, Es in E. cbn [app] in E. apply ws_cut in E; auto; nows. destruct E as (_ & -> & E).
  inversion Hv as [| | |? Hn| |w0 Hw0|b' vs He| |]; subst; try discriminate.
  - apply number_first in Hn. destruct Hn as (? & ? & [= <- _] & Hn). unfold is_digit in Hn. lia.
  - match goal with H : 91 :: _ = 91 :: _ |- _ => injection H as <- end. rewrite <- !app_assoc in E. cbn [app] in E. inversion Ha as [w3 Hw3|b3 ts3 Hi]; subst.
    + rewrite <- !app_assoc in E. cbn [app] in E. apply ws_cut in E; auto; nows. destruct E as (-> & _ & ->). auto.
    + exfalso. rewrite <- !app_assoc in E. cbn [app] in E. destruct (items_head _ _ Hi Hs (93 :: r2)) as (w1 & c & x & Ex & Hw1 & Hc1 & N). rewrite Ex in E. apply ws_cut in E; auto; nows. destruct E as (_ & K & _). auto.
  - match goal with H : 91 :: _ = 91 :: _ |- _ => injection H as <- end. rewrite <- !app_assoc in E. cbn [app] in E. inversion Ha as [w3 Hw3|b3 ts3 Hi]; subst.
    + exfalso. rewrite <- !app_assoc in E. cbn [app] in E. destruct (elements_head _ _ He (93 :: r)) as (w1 & c & x & Ex & Hw1 & Hc1 & N). rewrite Ex in E. apply ws_cut in E; auto; nows. destruct E as (_ & K & _). auto.
    + rewrite <- !app_assoc in E. cbn [app] in E. destruct (items_prefix _ _ Hi Hw _ _ _ _ He E) as [-> ->]. auto.
Qed.
Lemma object_firm t ps : object_text t ps -> Forall kwhole ps -> firm t.
Proof.
  intros Ha Hw w w' s j r r2 H1 H1' Hv E.
  assert (G : exists b, t = 123 :: b) by (destruct Ha; eauto). destruct G as (b & Eb). destruct (starts_value _ _ Hv) as (c & s' & Es & Hc & _).
  rewrite Eb, Es in E. cbn [app] in E. apply ws_cut in E; auto; nows. destruct E as (_ & -> & E).
  inversion Hv as [| | |? Hn| | | |w0 Hw0|b' vs He]; subst; try discriminate.
  - apply number_first in Hn. destruct Hn as (? & ? & [= <- _] & Hn). unfold is_digit in Hn. lia.
  - match goal with H : 123 :: _ = 123 :: _ |- _ => injection H as <- end. rewrite <- !app_assoc in E. cbn [app] in E. inversion Ha as [w3 Hw3|b3 ts3 Hi]; subst.
    + rewrite <- !app_assoc in E. cbn [app] in E. apply ws_cut in E; auto; nows. destruct E as (-> & _ & ->). auto.
    + exfalso. rewrite <- !app_assoc in E. cbn [app] in E.
      assert (K : exists w1 c x, b3 ++ 125 :: r2 = w1 ++ c :: x /\ ws w1 /\ ~ is_ws c /\ c <> 125).
      { assert (Kh : forall p, kwhole p -> exists c k', fst p = c :: k' /\ ~ is_ws c /\ c <> 125).
        { intros p [_ [(bk & sk & -> & _)| ->]]; [exists 34, (bk ++ [34])|exists 110, (bs "ull")]; (split; [reflexivity|]); (split; [nows|discriminate]). }
        inversion Hi; subst; inversion Hw as [|? ? Kp _]; subst; destruct (Kh _ Kp) as (c & k' & Ek & Hc1 & N); cbn [fst] in Ek; subst; rewrite <- ?app_assoc; cbn [app]; eauto 9. }
      destruct K as (w1 & c & x & Ex & Hw1 & Hc1 & N). rewrite Ex in E. apply ws_cut in E; auto; nows. destruct E as (_ & K & _). auto.
  - match goal with H : 123 :: _ = 123 :: _ |- _ => injection H as <- end. rewrite <- !app_assoc in E. cbn [app] in E. inversion Ha as [w3 Hw3|b3 ts3 Hi]; subst.
    + exfalso. rewrite <- !app_assoc in E. cbn [app] in E.
      assert (K : exists w1 x, b' ++ 125 :: r = w1 ++ 34 :: x /\ ws w1) by (inversion He; subst; rewrite <- ?app_assoc; cbn [app]; eauto).
      destruct K as (w1 & x & Ex & Hw1). rewrite Ex in E. apply ws_cut in E; auto; nows. destruct E as (_ & K & _). discriminate.
    + rewrite <- !app_assoc in E. cbn [app] in E. destruct (pairs_prefix _ _ Hi Hw _ _ _ _ He E) as [-> ->]. auto.
Qed.
Lemma quote_firm x : Forall (fun c => c <> 34 /\ c <> 92) x -> firm (quote x).
Proof.
  intros Hx w w' s j r r2 H1 H1' Hv E. destruct (starts_value _ _ Hv) as (c & s' & Es & Hc & _). unfold quote in *.
  rewrite Es in E. cbn [app] in E. apply ws_cut in E; auto; nows. destruct E as (_ & -> & E).
  inversion Hv as [| | |? Hn|b s0 (us & Hb & _)| | | |]; subst; try discriminate.
  - apply number_first in Hn. destruct Hn as (? & ? & [= <- _] & Hn). unfold is_digit in Hn. lia.
  - match goal with H : 34 :: _ = 34 :: _ |- _ => injection H as <- end. rewrite <- !app_assoc in E. cbn [app] in E. destruct (plain_prefix _ Hx _ _ _ _ Hb E) as [-> ->]. auto.
Qed.
Lemma string_firm b s : string_body b s -> firm (quote b).
Proof.
  intros Hb w w' t j r r2 H1 H1' Hv E. destruct (starts_value _ _ Hv) as (c & s' & Es & Hc & _). unfold quote in *.
  rewrite Es in E. cbn [app] in E. apply ws_cut in E; auto; nows. destruct E as (_ & -> & E).
  inversion Hv as [| | |? Hn|b0 s0 Hb0| | | |]; subst; try discriminate.
  - apply number_first in Hn. destruct Hn as (? & ? & [= <- _] & Hn). unfold is_digit in Hn. lia.
  - match goal with H : 34 :: _ = 34 :: _ |- _ => injection H as <- end. rewrite <- !app_assoc in E. cbn [app] in E. destruct (body_det _ _ _ _ _ _ Hb0 Hb E) as [-> ->]. auto.
Qed.
Lemma literal_firm l j : l = bs "null" \/ l = bs "true" \/ l = bs "false" -> value l j -> firm l.
Proof.
  intros Hl Hl' w w' t j' r r2 H1 H1' Hv E. destruct (starts_value _ _ Hv) as (c' & s' & Es & Hc & _). destruct (starts_value _ _ Hl') as (c2 & s2 & Es2 & Hc2 & _).
  rewrite Es, Es2 in E. cbn [app] in E. apply ws_cut in E; auto. destruct E as (_ & -> & E). rewrite Es, Es2.
  assert (Hd : c2 = 110 /\ s2 = bs "ull" \/ c2 = 116 /\ s2 = bs "rue" \/ c2 = 102 /\ s2 = bs "alse").
  { destruct Hl as [-> |[-> | ->]]; injection Es2 as <- <-; auto. }
  assert (Hs : s' = s2).
  { inversion Hv as [| | |? Hn| | | | |]; subst; try (match goal with K : _ = c2 :: s' |- _ => injection K as <- <- end; destruct Hd as [[? ->]|[[? ->]|[? ->]]]; try discriminate; reflexivity).
    apply number_first in Hn. destruct Hn as (? & ? & [= <- _] & Hn). unfold is_digit in Hn. exfalso. lia. }
  subst s'. apply app_inv_head in E. auto.
Qed.
Lemma value_firm t j : value t j -> firm t \/ number t.
Proof.
  intros H. destruct j as [|b|n|s|l|ms].
  - left. inversion H; subst. eapply literal_firm; eauto.
  - left. inversion H; subst; eapply literal_firm; eauto.
  - right. inversion H; now subst.
  - left. inversion H; subst. eapply string_firm; eauto.
  - left. destruct (value_array _ _ H) as (ts & Ht & Hv). apply (array_firm _ _ Ht).
    + clear - Hv. induction Hv; constructor; eauto using value_whole.
    + intros t0 K. clear - Hv K. induction Hv as [|x y l l' A _ IH]; [destruct K|]. destruct K as [<-|K]; eauto using starts_value.
  - left. destruct (value_object _ _ H) as (ps & Ht & Hv). apply (object_firm _ _ Ht).
    clear - Hv. induction Hv as [|x y l l' (b & A & B & D) _ IH]; constructor; auto. split; [eapply value_whole; eauto|eauto].
Qed.
Lemma null_firm : firm (bs "null").
Proof. eapply literal_firm; eauto; constructor. Qed.

Section Firm.
Variables F32 F64 : floatOps.
Variable C : custom.
Variable E : env F32 F64 C.
Variables un dis : bool.
Variable sf : Z -> Z.
Variable cs : bool.
Notation lookup := (findField sf cs).
Notation decodes := (decodes F32 F64 C E lookup un dis).
Theorem firm_decodes T o old t v : decodes T o old t v -> firm t \/ number t.
Proof.
  destruct (whole_decodes F32 F64 C E un dis sf cs) as (_ & We & Wo & Wn & Wm & _).
  induction 1; eauto using null_firm, string_firm, value_firm, int_text_number.
  - left. eapply literal_firm; eauto; constructor.
  - left. eapply literal_firm; eauto; constructor.
  - left. apply quote_firm, Forall_app. split; [now apply ws_plain|repeat constructor; discriminate].
  - left. apply quote_firm, Forall_app. split; [now apply ws_plain|repeat constructor; discriminate].
  - left. apply quote_firm, Forall_app. split; [now apply ws_plain|repeat constructor; discriminate].
  - left. apply quote_firm, numchar_plain, number_chars. eauto using int_text_number.
  - left. apply quote_firm, numchar_plain, number_chars. auto.
  - left. match goal with K : SpecVal.elems _ _ _ _ _ _ _ _ _ _ |- _ => apply We in K; destruct K end. eapply array_firm; eauto.
  - left. match goal with K : SpecVal.overwrite _ _ _ _ _ _ _ _ _ _ _ |- _ => apply Wo in K; destruct K end. eapply array_firm; eauto.
  - left. match goal with K : SpecVal.entries _ _ _ _ _ _ _ _ _ _ _ _ |- _ => apply Wn in K end. eapply object_firm; eauto.
  - left. match goal with K : SpecVal.members _ _ _ _ _ _ _ _ _ _ _ |- _ => apply Wm in K end. eapply object_firm; eauto.
Qed.
(** what is left, compared with what Skip leaves *)
Theorem in_step T o old w t r v w' t' j f r' : decodes T o old t v -> ws w -> ws w' -> value t' j -> vends t' j f r' -> w ++ t ++ r = w' ++ t' ++ r' ->
  (t = t' /\ r = r') \/ (w = w' /\ exists u, u <> [] /\ number t /\ number t' /\ t' = t ++ u /\ r = u ++ r').
Proof.
  intros D Hw Hw' Hv He Es. destruct (firm_decodes _ _ _ _ _ D) as [Hf|Hn].
  - left. symmetry in Es. destruct (Hf _ _ _ _ _ _ Hw' Hw Hv Es). auto.
  - destruct (number_first _ Hn) as (c & x & -> & Hc). destruct (starts_value _ _ Hv) as (c' & x' & -> & Hc' & _).
    cbn [app] in Es. apply ws_cut in Es; auto; [|unfold is_ws, is_digit in *; lia]. destruct Es as (-> & <- & Es).
    assert (Hn' : number (c :: x') /\ j = JNum (c :: x')).
    { inversion Hv; subst; auto; unfold is_digit in Hc; exfalso; lia. } destruct Hn' as [Hn' ->]. cbn [vends] in He.
    apply app_eq_app in Es. destruct Es as (u & [[-> ->]|[-> ->]]).
    + destruct u as [|d u]; [left; rewrite !app_nil_r; auto|]. exfalso. destruct He as [He _]. apply (He d (u ++ r) u eq_refl). exact Hn.
    + destruct u as [|d u]; [left; rewrite !app_nil_r; auto|]. right. split; auto. exists (d :: u). repeat (split; auto). discriminate.
Qed.
End Firm.
