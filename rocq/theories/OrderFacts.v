(** Decoding of reordered members. *)
From Coq Require Import String ZArith List Bool Lia Arith Permutation.
From Verif Require Import Base ModelIter ModelStack ModelSkip ModelStr ModelInt ModelFloat ModelRead ModelIterate ModelOps
  ModelFold ModelBase64 Sim SimLib StackFacts Machine SimSkip SimRaw SimStr SimInt SimFloat SimRead SimIterate SimOps SimVal
  NumFacts StrFacts MachineFacts FloatFacts GrammarFacts IntFacts IterateFacts IterFacts ModelVal SpecVal DecFacts DecSound DecComplete
  CutTyped Spec TreeFacts SpecSpell SpellFacts SpellVal SpecOrder.
Import ListNotations.
Local Open Scope Z_scope.

(** ** The parts of a text *)
Lemma sep_numchar u r r' : sep (u ++ r) -> Forall numchar u -> u ++ r = r' -> u = [].
Proof.
  intros (c & x & E & Hc) Hu _. destruct u as [|z u]; auto. injection E as -> _. inversion Hu; subst. unfold numchar, is_ws in *. lia.
Qed.
(** [s] can only be read as a whole *)
Definition whole (s : bytes) : Prop := forall w w' t j r r2, ws w -> ws w' -> value t j -> sep r -> sep r2 -> w ++ t ++ r = w' ++ s ++ r2 -> t = s /\ r = r2.
Lemma value_whole s j0 : value s j0 -> whole s.
Proof.
  intros Hs w w' t j r r2 Hw Hw' Hv Hr Hr2 E.
  assert (A : p_tree EEOF (w ++ t ++ r) = POk j r) by (apply tree_spec; exists w, t; repeat (split; auto); now apply sep_vends).
  assert (B : p_tree EEOF (w ++ t ++ r) = POk j0 r2) by (apply tree_spec; exists w', s; repeat (split; auto); now apply sep_vends).
  rewrite A in B. injection B as <- <-. split; auto. rewrite !app_assoc in E. apply app_inv_tail in E.
  destruct (value_head _ _ Hs) as (c & s' & -> & Hc & _), (value_head _ _ Hv) as (c' & t' & -> & Hc' & _).
  destruct (CutTyped.ws_split w c' t' w' c s') as (_ & -> & ->); auto.
Qed.
Lemma nws c : c = 44 \/ c = 93 \/ c = 125 \/ c = 58 \/ c = 34 -> ~ is_ws c.
Proof. unfold is_ws. lia. Qed.
Ltac sepw := apply ws_sep; auto.
Lemma items_elements b ts : items b ts -> forall js, elements b js -> Forall whole ts -> Forall2 value ts js.
Proof.
  induction 1 as [w1 t w2 H1 H2|w1 t w2 r ts H1 H2 Hi IH]; intros js He Hw; inversion Hw as [|? ? Ht Hts]; subst;
    inversion He as [w1' t' v w2' H1' Hv H2' E|w1' t' v w2' r' vs H1' Hv H2' He' E]; subst.
  - destruct (Ht w1' w1 t' v (w2' ++ [93]) (w2 ++ [93])) as [<- _]; auto; [sepw|sepw|].
    transitivity ((w1' ++ t' ++ w2') ++ [93]); [now rewrite <- !app_assoc|]. rewrite E. now rewrite <- !app_assoc.
  - exfalso. destruct (Ht w1' w1 t' v (w2' ++ 44 :: r' ++ [93]) (w2 ++ [93])) as [<- K]; auto; [sepw|sepw| |].
    + transitivity ((w1' ++ t' ++ w2' ++ 44 :: r') ++ [93]); [now repeat (cbn [app]; rewrite <- ?app_assoc)|]. rewrite E. now rewrite <- !app_assoc.
    + apply CutTyped.ws_split in K; auto; try solve [let h := fresh in intro h; unfold is_ws in h; lia]. destruct K as (_ & K & _). discriminate.
  - exfalso. destruct (Ht w1' w1 t' v (w2' ++ [93]) (w2 ++ 44 :: r ++ [93])) as [<- K]; auto; [sepw|sepw| |].
    + transitivity ((w1' ++ t' ++ w2') ++ [93]); [now rewrite <- !app_assoc|]. rewrite E. now repeat (cbn [app]; rewrite <- ?app_assoc).
    + apply CutTyped.ws_split in K; auto; try solve [let h := fresh in intro h; unfold is_ws in h; lia]. destruct K as (_ & K & _). discriminate.
  - destruct (Ht w1' w1 t' v (w2' ++ 44 :: r') (w2 ++ 44 :: r)) as [<- K]; auto; [sepw|sepw|].
    apply CutTyped.ws_split in K; auto; try solve [let h := fresh in intro h; unfold is_ws in h; lia]. destruct K as (_ & _ & ->). constructor; auto.
Qed.
Lemma ws_in w c : ws w -> In c w -> is_ws c.
Proof. intros H K. unfold ws in H. rewrite Forall_forall in H. auto. Qed.
Lemma not_elements w : ws w -> forall js, ~ elements w js.
Proof.
  intros Hw js He. inversion He as [w1 t v w2 H1 Hv H2 E|w1 t v w2 r vs H1 Hv H2 He' E]; subst;
    destruct (value_head _ _ Hv) as (c & t' & -> & Hc & _); apply Hc; apply (ws_in _ _ Hw); apply in_or_app; right; now left.
Qed.
Lemma not_items w ts : ws w -> items w ts -> Forall whole ts -> (forall t, In t ts -> DecComplete.starts t) -> False.
Proof.
  intros Hw Hi _ Hs. inversion Hi as [w1 t w2 H1 H2|w1 t w2 r ts' H1 H2 He' E]; subst;
    destruct (Hs t (or_introl eq_refl)) as (c & t' & -> & Hc & _); apply Hc; apply (ws_in _ _ Hw); apply in_or_app; right; now left.
Qed.
Lemma array_values t j ts : value t j -> array_text t ts -> Forall whole ts -> (forall t, In t ts -> DecComplete.starts t) -> exists js, j = JArr js /\ Forall2 value ts js.
Proof.
  intros Hv Ha Hw Hs. destruct Ha as [w H|b ts Hi].
  - inversion Hv; subst; try (exists []; now auto).
    + match goal with H : number _ |- _ => apply number_first in H; destruct H as (? & ? & [= <- _] & H); unfold is_digit in H; lia end.
    + match goal with H : _ ++ [93] = _ ++ [93] |- _ => apply app_inv_tail in H; subst end. exfalso. eapply not_elements; eauto.
  - inversion Hv; subst.
    + match goal with H : number _ |- _ => apply number_first in H; destruct H as (? & ? & [= <- _] & H); unfold is_digit in H; lia end.
    + match goal with H : _ ++ [93] = _ ++ [93] |- _ => apply app_inv_tail in H; subst end. exfalso. eapply not_items; eauto.
    + match goal with H : _ ++ [93] = _ ++ [93] |- _ => apply app_inv_tail in H; subst end. eexists. split; [reflexivity|]. eapply items_elements; eauto.
Qed.

(** the same for objects *)
Definition kwhole (p : bytes * bytes) : Prop := whole (snd p) /\ ((exists b s, fst p = quote b /\ string_body b s) \/ fst p = bs "null").
Definition memberOf (p : bytes * bytes) (m : bytes * jval) : Prop := exists b, fst p = quote b /\ string_body b (fst m) /\ value (snd p) (snd m).
Lemma body_det b s b' s' r r' : string_body b s -> string_body b' s' -> b ++ 34 :: r = b' ++ 34 :: r' -> b = b' /\ r = r'.
Proof.
  intros H H' E0. assert (K : p_readStringAsSlice EEOF (b ++ 34 :: r) = POk s r) by (apply readString_spec; eauto).
  assert (K' : p_readStringAsSlice EEOF (b ++ 34 :: r) = POk s' r') by (apply readString_spec; eauto).
  rewrite K in K'. injection K' as <- <-. now apply app_inv_tail in E0.
Qed.
(** the key of the first member, up to the value *)
Lemma key_det w b s w2 x w' kt w2' x' : ws w -> string_body b s -> ws w2 -> ws w' -> ws w2' -> (exists b s, kt = quote b /\ string_body b s) \/ kt = bs "null" ->
  w ++ 34 :: b ++ 34 :: w2 ++ 58 :: x = w' ++ kt ++ w2' ++ 58 :: x' -> kt = quote b /\ x = x'.
Proof.
  intros Hw Hb H2 Hw' H2' [(b' & s' & -> & Hb')| ->] E0.
  - unfold quote in E0. cbn [app] in E0. rewrite <- app_assoc in E0. apply CutTyped.ws_split in E0; auto; try solve [let h := fresh in intro h; unfold is_ws in h; lia]. destruct E0 as (_ & _ & E0).
    apply (body_det b s b' s') in E0; auto. destruct E0 as [<- E0]. apply CutTyped.ws_split in E0; auto; try solve [let h := fresh in intro h; unfold is_ws in h; lia]. destruct E0 as (_ & _ & ->). auto.
  - exfalso. apply (CutTyped.ws_split w 34 _ w' 110 (bs "ull" ++ w2' ++ 58 :: x')) in E0; auto; try solve [let h := fresh in intro h; unfold is_ws in h; lia]. destruct E0 as (_ & K & _). discriminate.
Qed.
Lemma pairs_members b ps : pairs b ps -> forall ms, members b ms -> Forall kwhole ps -> Forall2 memberOf ps ms.
Proof.
  induction 1 as [w1 k w2 w3 t w4 H1 H2 H3 H4|w1 k w2 w3 t w4 r ps H1 H2 H3 H4 Hi IH]; intros ms He Hw; inversion Hw as [|? ? [Ht Hk] Hts]; subst; cbn [fst snd] in *;
    inversion He as [w1' b' k' w2' w3' t' v w4' H1' Hb H2' H3' Hv H4' E|w1' b' k' w2' w3' t' v w4' r' vs H1' Hb H2' H3' Hv H4' He' E]; subst.
  - apply (key_det _ _ k') in E; auto. destruct E as [-> E].
    destruct (Ht w3' w3 t' v (w4' ++ [93]) (w4 ++ [93])) as [<- _]; auto; [sepw|sepw| |].
    { transitivity ((w3' ++ t' ++ w4') ++ [93]); [now rewrite <- !app_assoc|]. rewrite E. now rewrite <- !app_assoc. }
    constructor; [|constructor]. exists b'. auto.
  - exfalso. apply (key_det _ _ k') in E; auto. destruct E as [-> E].
    destruct (Ht w3' w3 t' v (w4' ++ 44 :: r' ++ [93]) (w4 ++ [93])) as [<- K]; auto; [sepw|sepw| |].
    { transitivity ((w3' ++ t' ++ w4' ++ 44 :: r') ++ [93]); [now repeat (cbn [app]; rewrite <- ?app_assoc)|]. rewrite E. now rewrite <- !app_assoc. }
    apply CutTyped.ws_split in K; auto; try solve [let h := fresh in intro h; unfold is_ws in h; lia]. destruct K as (_ & K & _). discriminate.
  - exfalso. apply (key_det _ _ k') in E; auto. destruct E as [-> E].
    destruct (Ht w3' w3 t' v (w4' ++ [93]) (w4 ++ 44 :: r ++ [93])) as [<- K]; auto; [sepw|sepw| |].
    { transitivity ((w3' ++ t' ++ w4') ++ [93]); [now rewrite <- !app_assoc|]. rewrite E. now repeat (cbn [app]; rewrite <- ?app_assoc). }
    apply CutTyped.ws_split in K; auto; try solve [let h := fresh in intro h; unfold is_ws in h; lia]. destruct K as (_ & K & _). discriminate.
  - apply (key_det _ _ k') in E; auto. destruct E as [-> E].
    destruct (Ht w3' w3 t' v (w4' ++ 44 :: r') (w4 ++ 44 :: r)) as [<- K]; auto; [sepw|sepw|].
    apply CutTyped.ws_split in K; auto; try solve [let h := fresh in intro h; unfold is_ws in h; lia]. destruct K as (_ & _ & ->). constructor; auto. exists b'. auto.
Qed.
Lemma not_members w : ws w -> forall ms, ~ members w ms.
Proof. intros Hw ms He. inversion He; subst; (assert (K : is_ws 34) by (apply (ws_in _ _ Hw); apply in_or_app; right; now left)); unfold is_ws in K; lia. Qed.
Lemma not_pairs w ps : ws w -> pairs w ps -> False.
Proof.
  intros Hw Hi. inversion Hi; subst; (assert (K : is_ws 58) by (apply (ws_in _ _ Hw); do 3 (apply in_or_app; right); now left)); unfold is_ws in K; lia.
Qed.
Lemma object_values t j ps : value t j -> object_text t ps -> Forall kwhole ps -> exists ms, j = JObj ms /\ Forall2 memberOf ps ms.
Proof.
  intros Hv Ha Hw. destruct Ha as [w H|b ps Hi].
  - inversion Hv; subst; try (exists []; now auto).
    + match goal with H : number _ |- _ => apply number_first in H; destruct H as (? & ? & [= <- _] & H); unfold is_digit in H; lia end.
    + match goal with H : _ ++ [125] = _ ++ [125] |- _ => apply app_inv_tail in H; subst end. exfalso. eapply not_members; eauto.
  - inversion Hv; subst.
    + match goal with H : number _ |- _ => apply number_first in H; destruct H as (? & ? & [= <- _] & H); unfold is_digit in H; lia end.
    + match goal with H : _ ++ [125] = _ ++ [125] |- _ => apply app_inv_tail in H; subst end. exfalso. eapply not_pairs; eauto.
    + match goal with H : _ ++ [125] = _ ++ [125] |- _ => apply app_inv_tail in H; subst end. eexists. split; [reflexivity|]. eapply pairs_members; eauto.
Qed.
(** the other way round *)
Lemma value_array t js : value t (JArr js) -> exists ts, array_text t ts /\ Forall2 value ts js.
Proof.
  intros H. inversion H as [| | | | |w Hw|b vs He| |]; subst; [exists []; split; [now constructor|constructor]|].
  assert (K : exists ts, items b ts /\ Forall2 value ts js).
  { clear H. induction He as [w1 t v w2 H1 Hv H2|w1 t v w2 r vs H1 Hv H2 He IH]; [exists [t]; split; [now constructor|auto]|].
    destruct IH as (ts & Hi & Hf). exists (t :: ts). split; [now constructor|auto]. }
  destruct K as (ts & Hi & Hf). exists ts. split; auto. now constructor.
Qed.
Lemma value_object t ms : value t (JObj ms) -> exists ps, object_text t ps /\ Forall2 memberOf ps ms.
Proof.
  intros H. inversion H as [| | | | | | |w Hw|b vs He]; subst; [exists []; split; [now constructor|constructor]|].
  assert (K : exists ps, pairs b ps /\ Forall2 memberOf ps ms).
  { clear H. induction He as [w1 b k w2 w3 t v w4 H1 Hb H2 H3 Hv H4|w1 b k w2 w3 t v w4 r vs H1 Hb H2 H3 Hv H4 He IH].
    - exists [(quote b, t)]. split; [|constructor; [exists b; auto|constructor]].
      replace (w1 ++ 34 :: b ++ 34 :: w2 ++ 58 :: w3 ++ t ++ w4) with (w1 ++ quote b ++ w2 ++ 58 :: w3 ++ t ++ w4); [now constructor|].
      unfold quote. cbn [app]. now rewrite <- app_assoc.
    - destruct IH as (ps & Hi & Hf). exists ((quote b, t) :: ps). split; [|constructor; [exists b; auto|auto]].
      replace (w1 ++ 34 :: b ++ 34 :: w2 ++ 58 :: w3 ++ t ++ w4 ++ 44 :: r) with (w1 ++ quote b ++ w2 ++ 58 :: w3 ++ t ++ w4 ++ 44 :: r); [now constructor|].
      unfold quote. cbn [app]. now rewrite <- app_assoc. }
  destruct K as (ps & Hi & Hf). exists ps. split; auto. now constructor.
Qed.
