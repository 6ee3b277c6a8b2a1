(** Decoding an object in two parts. *)
From Coq Require Import String ZArith List Bool Lia Arith.
From Verif Require Import Base ModelIter ModelStack ModelSkip ModelStr ModelInt ModelFloat ModelRead ModelIterate ModelOps
  ModelFold ModelBase64 Sim SimLib StackFacts Machine SimSkip SimRaw SimStr SimInt SimFloat SimRead SimIterate SimOps SimVal
  NumFacts StrFacts MachineFacts FloatFacts GrammarFacts IntFacts IterateFacts IterFacts ModelVal SpecVal DecFacts DecSound DecComplete
  CutTyped Spec SpecStream TreeFacts EncRound SpecSpell SpellFacts SpellVal SpecOrder OrderFacts AgainWhole SpecPatch.
Import ListNotations.
Local Open Scope Z_scope.

Definition piece (p : bytes * bytes) : Prop := (exists b s, fst p = quote b /\ string_body b s) /\ exists j, value (snd p) j.
(** the members of a text are determined *)
Lemma pairs_same b ps : pairs b ps -> Forall kwhole ps -> forall b' ps', pairs b' ps' -> b' = b -> Forall piece ps' -> ps = ps'.
Proof.
  induction 1 as [w1 k w2 w3 t w4 H1 H2 H3 H4|w1 k w2 w3 t w4 r ps H1 H2 H3 H4 Hi IH]; intros Hw b0 ps' He E Hp; inversion Hw as [|? ? [Ht Hk] Hts]; subst; cbn [fst snd] in *;
    inversion He as [w1' k' w2' w3' t' w4' H1' H2' H3' H4' E|w1' k' w2' w3' t' w4' r' vs H1' H2' H3' H4' He' E]; subst;
    inversion Hp as [|? ? [(b' & s' & Ek & Hb) (v & Hv)] Hp']; subst; cbn [fst snd] in *; subst k';
    unfold quote in E; repeat (cbn [app] in E; rewrite <- ?app_assoc in E); apply (key_det _ _ s') in E; auto; destruct E as [-> E].
  - destruct (Ht w3' w3 t' v (w4' ++ [93]) (w4 ++ [93])) as [<- _]; auto; [sepw|sepw|].
    transitivity ((w3' ++ t' ++ w4') ++ [93]); [now rewrite <- !app_assoc|]. rewrite E. now rewrite <- !app_assoc.
  - exfalso. destruct (Ht w3' w3 t' v (w4' ++ 44 :: r' ++ [93]) (w4 ++ [93])) as [<- K]; auto; [sepw|sepw| |].
    { transitivity ((w3' ++ t' ++ w4' ++ 44 :: r') ++ [93]); [now repeat (cbn [app]; rewrite <- ?app_assoc)|]. rewrite E. now rewrite <- !app_assoc. }
    apply ws_cut in K; auto; nows. destruct K as (_ & K & _). discriminate.
  - exfalso. destruct (Ht w3' w3 t' v (w4' ++ [93]) (w4 ++ 44 :: r ++ [93])) as [<- K]; auto; [sepw|sepw| |].
    { transitivity ((w3' ++ t' ++ w4') ++ [93]); [now rewrite <- !app_assoc|]. rewrite E. now repeat (cbn [app]; rewrite <- ?app_assoc). }
    apply ws_cut in K; auto; nows. destruct K as (_ & K & _). discriminate.
  - destruct (Ht w3' w3 t' v (w4' ++ 44 :: r') (w4 ++ 44 :: r)) as [<- K]; auto; [sepw|sepw|].
    apply ws_cut in K; auto; nows. destruct K as (_ & _ & ->). f_equal. eapply IH; eauto.
Qed.
Lemma object_same t ps ps' : object_text t ps -> Forall kwhole ps -> object_text t ps' -> Forall piece ps' -> ps = ps'.
Proof.
  intros H Hw H' Hp. destruct H as [w Hs|b ps Hi]; inversion H' as [w' Hs' E|b' ps0 Hi' E]; subst; auto;
    try (match goal with H : _ ++ [125] = _ ++ [125] |- _ => apply app_inv_tail in H; subst end).
  - exfalso. eapply not_pairs; eauto.
  - exfalso. eapply not_pairs; eauto.
  - eapply pairs_same; eauto.
Qed.
Lemma piece_value t ps : object_text t ps -> Forall piece ps -> exists j, value t j.
Proof. exact (object_value t ps). Qed.
Lemma object_null t ps : object_text t ps -> t <> bs "null".
Proof. intros H. destruct H; discriminate. Qed.

Section Patch.
Variables F32 F64 : floatOps.
Variable C : custom.
Variable E : env F32 F64 C.
Variables un dis : bool.
Variable sf : Z -> Z.
Variable cs : bool.
Notation lookup := (findField sf cs).
Notation decodes := (decodes F32 F64 C E lookup un dis).
Notation entries := (entries F32 F64 C E lookup un dis).
Notation members := (SpecVal.members F32 F64 C E lookup un dis).
Lemma entries_app k T ps1 ps2 : forall m m', entries k T m (ps1 ++ ps2) m' <-> exists m1, entries k T m ps1 m1 /\ entries k T m1 ps2 m'.
Proof.
  induction ps1 as [|p ps1 IH]; intros m m'; cbn [app].
  - split; [intros H; exists m; split; [constructor|exact H]|]. intros (m1 & H & K). inversion H; now subst.
  - split.
    + intros H. inversion H; subst. match goal with K : entries _ _ _ (ps1 ++ ps2) _ |- _ => apply IH in K; destruct K as (m1 & A & B) end. exists m1. split; auto. econstructor; eauto.
    + intros (m1 & H & K). inversion H; subst. econstructor; eauto. apply IH. eauto.
Qed.
Lemma members_app fs ps1 ps2 : forall v v', members fs v (ps1 ++ ps2) v' <-> exists v1, members fs v ps1 v1 /\ members fs v1 ps2 v'.
Proof.
  induction ps1 as [|p ps1 IH]; intros m m'; cbn [app].
  - split; [intros H; exists m; split; [constructor|exact H]|]. intros (m1 & H & K). inversion H; now subst.
  - split.
    + intros H. inversion H; subst; match goal with K : SpecVal.members _ _ _ _ _ _ _ _ _ (ps1 ++ ps2) _ |- _ => apply IH in K; destruct K as (m1 & A & B) end; exists m1; (split; auto); [eapply ms_field|eapply ms_unknown]; eauto.
    + intros (m1 & H & K). inversion H; subst; [eapply ms_field|eapply ms_unknown]; eauto; apply IH; eauto.
Qed.
Theorem patch_decodes T : patched E T -> forall o old t t1 t2 ps1 ps2 v, object_text t (ps1 ++ ps2) -> object_text t1 ps1 -> object_text t2 ps2 -> Forall piece ps1 -> Forall piece ps2 ->
  decodes T o old t v <-> exists v', decodes T o old t1 v' /\ decodes T o v' t2 v.
Proof.
  assert (W := whole_decodes F32 F64 C E un dis sf cs). destruct W as (_ & _ & _ & We & Wm & _).
  induction 1 as [layout fields|k T|T H IH|n H IH]; intros o old t t1 t2 ps1 ps2 v Ht H1 H2 P1 P2;
    assert (N := object_null _ _ Ht); assert (N1 := object_null _ _ H1); assert (N2 := object_null _ _ H2); assert (P0 : Forall piece (ps1 ++ ps2)) by (apply Forall_app; auto).
  - split.
    + intros D. inversion D; subst; try congruence. match goal with K : object_text t ?ps |- _ => assert (Q : ps = ps1 ++ ps2) by (eapply object_same; eauto) end. subst.
      match goal with K : members _ _ (_ ++ _) _ |- _ => apply members_app in K; destruct K as (v1 & A & B) end. exists v1. split; econstructor; eauto.
    + intros (v1 & A & B). inversion A; subst; try congruence. inversion B; subst; try congruence.
      match goal with K : object_text t1 ?ps |- _ => assert (Q : ps = ps1) by (eapply object_same; eauto) end. subst.
      match goal with K : object_text t2 ?ps |- _ => assert (Q : ps = ps2) by (eapply object_same; eauto) end. subst.
      econstructor; eauto. apply members_app. eauto.
  - split.
    + intros D. inversion D; subst; try congruence. match goal with K : object_text t ?ps |- _ => assert (Q : ps = ps1 ++ ps2) by (eapply object_same; eauto) end. subst.
      match goal with K : entries _ _ _ (_ ++ _) _ |- _ => apply entries_app in K; destruct K as (v1 & A & B) end. exists (VMap (Some v1)). split; econstructor; eauto.
    + intros (v1 & A & B). inversion A; subst; try congruence. inversion B; subst; try congruence.
      match goal with K : object_text t1 ?ps |- _ => assert (Q : ps = ps1) by (eapply object_same; eauto) end. subst.
      match goal with K : object_text t2 ?ps |- _ => assert (Q : ps = ps2) by (eapply object_same; eauto) end. subst.
      econstructor; eauto. apply entries_app. eauto.
  - split.
    + intros D. inversion D; subst; try congruence; match goal with K : decodes _ _ _ t _ |- _ => apply (IH _ _ _ t1 t2 ps1 ps2) in K; auto; destruct K as (v1 & A & B) end;
        exists (VPtr (Some v1)); (split; [|now apply d_ptr_old]); [now apply d_ptr_new|now apply d_ptr_old].
    + intros (v1 & A & B). inversion A; subst; try congruence; inversion B; subst; try congruence; [apply d_ptr_new|apply d_ptr_old]; auto; eapply IH; eauto.
  - split.
    + intros D. inversion D; subst; [discriminate|]. match goal with K : decodes _ _ _ t _ |- _ => apply (IH _ _ _ t1 t2 ps1 ps2) in K; auto; destruct K as (v1 & A & B) end. exists v1. split; now constructor.
    + intros (v1 & A & B). inversion A; subst; [discriminate|]. inversion B; subst; [discriminate|]. constructor. eapply IH; eauto.
Qed.
(** white space does not matter *)
Theorem patch_same T : patched E T -> forall o old t t' ps v, object_text t ps -> object_text t' ps -> Forall piece ps -> decodes T o old t v -> decodes T o old t' v.
Proof.
  assert (W := whole_decodes F32 F64 C E un dis sf cs). destruct W as (_ & _ & _ & We & Wm & _).
  induction 1 as [layout fields|k T|T H IH|n H IH]; intros o old t t' ps v Ht H1 P1 D;
    assert (N := object_null _ _ Ht); assert (N1 := object_null _ _ H1); inversion D; subst; try congruence; try discriminate.
  - match goal with K : object_text t ?q, L : members _ _ ?q _ |- _ => assert (Q : q = ps) by (eapply object_same; eauto); subst end. econstructor; eauto.
  - match goal with K : object_text t ?q, L : entries _ _ _ ?q _ |- _ => assert (Q : q = ps) by (eapply object_same; eauto); subst end. econstructor; eauto.
  - apply d_ptr_new; eauto.
  - apply d_ptr_old; eauto.
  - constructor. eauto.
Qed.
(** the text of the value in a document *)
Lemma text_same T o old w1 t w2 w1' t' w2' j v : ws w1 -> ws w2 -> ws w1' -> ws w2' -> value t j -> decodes T o old t' v -> w1 ++ t ++ w2 = w1' ++ t' ++ w2' -> t = t'.
Proof.
  intros H1 H2 H1' H2' Hv Hd Es. assert (W := proj1 (whole_decodes F32 F64 C E un dis sf cs) _ _ _ _ _ Hd).
  destruct (W w1 w1' t j (w2 ++ [44]) (w2' ++ [44]) H1 H1' Hv) as [<- _]; [apply ws_sep; auto|apply ws_sep; auto| |auto].
  rewrite !app_assoc in *. now rewrite Es.
Qed.
End Patch.
