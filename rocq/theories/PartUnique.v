(** Proofs: what a failed decoding leaves in a variable is determined by the text (SpecPart.v). *)
From Coq Require Import String ZArith List Bool Lia Arith.
From Verif Require Import Base ModelIter ModelStack ModelSkip ModelStr ModelInt ModelFloat ModelRead ModelIterate ModelOps
  ModelFold ModelBase64 Spec Sim SimLib SimSkip SimRaw SimStr SimInt SimFloat SimRead SimIterate SimOps
  NumFacts StrFacts MachineFacts FloatFacts GrammarFacts IntFacts IterateFacts IterFacts SpecBase64 Base64Facts
  FoldFacts ModelVal SimVal SpecVal DecFacts DecSound DecComplete DecMono ModelPart PartAgree SpecPart PartText PartFacts.
Import ListNotations.
Local Open Scope Z_scope.

Section PartUnique.
Variables F32 F64 : floatOps.
Variable C : custom.
Notation gval := (gval F32 F64 C).
Variable E : env F32 F64 C.
Notation zero := (zero F32 F64 C E).
Notation under := (under F32 F64 C E).
Variable R : failures C.
Variables b d : bool.
Variable sf : Z -> Z.
Variable cs : bool.
Hypothesis sane32 : float_sane F32.
Hypothesis sane64 : float_sane F64.
Notation lookup := (findField sf cs).
Variable f : err.
Notation taken := (taken F32 F64 C E lookup b d f).
Notation taken_at := (taken_at F32 F64 C E lookup b d f).
Notation front := (front f).
Notation leaves := (leaves F32 F64 C E R lookup b d f).
Notation leaves_elems := (leaves_elems F32 F64 C E R lookup b d f).
Notation leaves_entries := (leaves_entries F32 F64 C E R lookup b d f).
Notation leaves_members := (leaves_members F32 F64 C E R lookup b d f).
Notation leaves_at := (leaves_at F32 F64 C E R lookup b d f).
Notation keyed := (keyed C).

Lemma front_det t s r j t1 r1 j1 : front t s r -> value t j -> front t1 s r1 -> value t1 j1 -> t1 = t /\ r1 = r.
Proof.
  intros H Hj H1 Hj1. destruct (front_vends _ _ _ _ _ H Hj) as (w & E1 & Hw & Hv). destruct (front_vends _ _ _ _ _ H1 Hj1) as (w1 & E2 & Hw1 & Hv1).
  assert (Q : p_SkipRaw f s = POk t r) by (apply SkipRaw_spec; eauto 10).
  assert (Q1 : p_SkipRaw f s = POk t1 r1) by (apply SkipRaw_spec; eauto 10). rewrite Q in Q1. injection Q1 as -> ->. auto.
Qed.
Lemma front_quote_det x s r y x1 r1 y1 : front (quote x) s r -> string_body x y -> front (quote x1) s r1 -> string_body x1 y1 -> y1 = y.
Proof.
  intros (w & -> & Hw & _) Hx (w1 & H & Hw1 & _) Hx1. destruct (split_start _ _ _ _ _ _ H Hw Hw1) as [_ Q]; [apply starts_quote..|].
  rewrite !quote_app in Q. injection Q as Q.
  assert (A : p_readStringAsSlice f (x ++ 34 :: r) = POk y r) by (apply readString_spec; eauto).
  assert (B : p_readStringAsSlice f (x ++ 34 :: r) = POk y1 r1) by (apply readString_spec; eauto). rewrite A in B. now injection B.
Qed.
Lemma head_split c w s w' s' : ~ is_ws c -> w ++ c :: s = w' ++ c :: s' -> ws w -> ws w' -> s = s'.
Proof.
  intros Hc H Hw. revert w' s' H. induction Hw as [|x w Hx Hw IH]; intros [|y w'] s' H Hw'; cbn [app] in H.
  - now injection H.
  - injection H as <- _. inversion Hw'; subst; tauto.
  - injection H as -> _. tauto.
  - injection H as _ H. inversion Hw'; subst. eapply IH; eauto.
Qed.
Lemma not_blank w c s : ~ is_ws c -> ~ ws (w ++ c :: s).
Proof. intros Hc H. apply Forall_app in H. destruct H as [_ H]. inversion H; subst; tauto. Qed.
Lemma token_at w c s : ws w -> ~ is_ws c -> token (w ++ c :: s) c.
Proof. intros Hw Hc. apply token_ws; auto. now apply token_head. Qed.
Lemma not_front_ws s t r j : ws s -> front t s r -> ~ value t j.
Proof.
  intros Hs (w & -> & _ & _) Hj. destruct (value_token _ _ Hj) as (c & Ht & Hc). rewrite Ht in Hs. apply Forall_app in Hs.
  destruct Hs as [_ Hs]. inversion Hs; subst; tauto.
Qed.
Lemma taken_not_ws T o v s r x : ws s -> ~ taken T o v s r x.
Proof.
  intros Hs H. destruct H as (w & t & -> & Hw & Hd & _).
  destruct (decodes_starts F32 F64 C E b d sf cs _ _ _ _ _ Hd) as (c & t' & -> & Hc & _). now apply not_blank in Hs.
Qed.
Lemma blank_leaves :
  (forall T o v s v', leaves T o v s v' -> ws s -> v' = v) /\
  (forall T l s l', leaves_elems T l s l' -> True) /\ (forall k T l s l', leaves_entries k T l s l' -> True) /\
  (forall fs v s v', leaves_members fs v s v' -> True) /\ (forall p T o v s v', leaves_at p T o v s v' -> True).
Proof.
  apply leaves_mutind; auto.
  - intros id o x s t r j e H Hj _ Hs. now apply not_front_ws with (j := j) in H.
  - intros id o x s y r s' e (w & -> & _) _ _ Hs. now apply not_blank in Hs; [|unfold is_ws; lia].
  - intros T o x s c y H _ _ IH Hs. f_equal. f_equal. auto.
  - intros T o P T' x s c y _ _ H _ _ IH Hs. now apply token_blank with (c := c) in Hs.
  - intros n T o a w s a' Hw _ _ Hs. apply not_blank in Hs; [easy|unfold is_ws; lia].
  - intros k T o p w s m _ _ _ _ _ Hs. apply not_blank in Hs; [easy|unfold is_ws; lia].
  - intros layout fs o v w s v' _ _ _ _ Hs. apply not_blank in Hs; [easy|unfold is_ws; lia].
Qed.

Ltac nows := unfold is_ws; lia.
Ltac badT := solve [ exfalso; repeat match goal with H : _ = _ \/ _ |- _ => destruct H | H : exists _, _ |- _ => destruct H end; subst; discriminate ].
Ltac clash := solve [ exfalso; eauto
  | match goal with H : Some _ = Some _ |- _ => injection H as <- end; exfalso; match goal with H : ~ token _ _ |- _ => apply H; apply token_at; [assumption|nows] end ].

Ltac sameKey Hk := match type of Hk with keyed ?k ?s ?key ?s' => match goal with K : keyed k s ?key1 ?s1 |- _ =>
  tryif constr_eq s1 s' then fail else destruct (keyed_det F32 F64 C E b d sf cs f _ _ _ _ _ _ Hk K) as [-> ->] end end.
Ltac sameTaken Ht K := destruct (taken_det F32 F64 C E b d sf cs sane32 sane64 _ _ _ _ _ _ _ _ _ Ht K) as [Q ?].
Ltac sameAt Ht K := destruct (taken_at_det F32 F64 C E b d sf cs sane32 sane64 _ _ _ _ _ _ _ _ _ _ Ht K) as [Q ?].
Ltac sameComma W := match goal with Q : _ ++ 44 :: _ = _ ++ 44 :: _ |- _ => apply head_split in Q; auto; [|nows] end.
Ltac sameName Hn := match type of Hn with named ?s ?name ?r => match goal with K : named s ?n1 ?r1 |- _ =>
  tryif constr_eq r1 r then fail else destruct (named_det f _ _ _ _ _ Hn K) as [-> ->] end end.
Ltac sameField Hl Hi := match type of Hl with _ = Some ?i => match goal with K : findField sf cs _ _ = Some ?i1, K1 : nth_error _ ?i1 = Some ?fd1 |- _ =>
  tryif constr_eq i i1 then fail else (rewrite Hl in K; injection K as <-; rewrite Hi in K1; injection K1 as <-) end end.

Theorem leaves_unique :
  (forall T o v s v', leaves T o v s v' -> forall v1, leaves T o v s v1 -> v1 = v') /\
  (forall T l s l', leaves_elems T l s l' -> forall l1, leaves_elems T l s l1 -> l1 = l') /\
  (forall k T l s l', leaves_entries k T l s l' -> forall l1, leaves_entries k T l s l1 -> l1 = l') /\
  (forall fs v s v', leaves_members fs v s v' -> forall v1, leaves_members fs v s v1 -> v1 = v') /\
  (forall p T o v s v', leaves_at p T o v s v' -> forall v1, leaves_at p T o v s v1 -> v1 = v').
Proof.
  apply leaves_mutind.
  - (* l_atomic *) intros T o v s H v1 H1. inversion H1; subst; auto; cbn [atomic] in H; try contradiction; try discriminate; try badT.
    + match goal with K : T = TEface \/ _ |- _ => destruct K as [-> | ->] end; exfalso; eapply H; eauto.
    + destruct fs; contradiction.
  - (* l_other *) intros T o v s c H H0 v1 H1. inversion H1; subst; auto; try discriminate; cbn [opens] in H; try clash.
    match goal with K : T = TEface \/ _ |- _ => destruct K as [-> | ->] end; discriminate.
  - (* l_json *) intros id o v s H v1 H1. inversion H1; subst; auto; try discriminate; [exfalso; eapply H; eauto|badT].
  - (* l_json_method *) intros id o x s t r j e H Hj He v1 H1. inversion H1; subst; cbn [atomic opens] in *; try contradiction; try discriminate; try badT.
    + exfalso. match goal with K : forall t r j, front t s r -> _ |- _ => eapply K; eauto end.
    + match goal with K : front ?t1 s ?r1, K1 : value ?t1 ?j1 |- _ => destruct (front_det _ _ _ _ _ _ _ H Hj K K1) as [-> ->] end. auto.
  - (* l_text *) intros id o v s H v1 H1. inversion H1; subst; auto; try discriminate; [exfalso; eapply H; eauto|badT].
  - (* l_text_method *) intros id o x s t r y e H Hj He v1 H1. inversion H1; subst; cbn [atomic opens] in *; try contradiction; try discriminate; try badT.
    + exfalso. match goal with K : forall b r s', front (quote b) s r -> _ |- _ => eapply K; eauto end.
    + match goal with K : front (quote ?t1) s ?r1, K1 : string_body ?t1 ?j1 |- _ => now rewrite (front_quote_det _ _ _ _ _ _ _ H Hj K K1) end.
  - (* l_null *) intros T o v s HT Hs v1 H1.
    assert (NT : forall c, token s c -> c <> 110 -> False).
    { intros c Hc Hn. destruct Hs as [Hs|Hs]; [apply Hn; eapply token_fun; eauto|now apply token_blank with (c := c) in Hs]. }
    inversion H1; subst; auto; try badT; exfalso; eauto.
  - (* l_ptr *) intros T o x s c y Hc Hn _ IH v1 H1. inversion H1; subst; cbn [atomic opens] in *; try contradiction; try discriminate; try badT.
    + exfalso. match goal with K : token s 110 \/ _ |- _ => destruct K as [K|K]; [apply Hn; eapply token_fun; eauto|now apply token_blank with (c := c) in K] end.
    + f_equal. f_equal. auto.
  - (* l_held *) intros T o P T' x s c y HT HP Hc Hn _ IH v1 H1. inversion H1; subst; cbn [atomic opens] in *; try contradiction; try discriminate; try badT.
    + exfalso. destruct HT as [-> | ->]; cbn [atomic] in *; match goal with K : forall P T y, _ |- _ => eapply K; eauto end.
    + exfalso. match goal with K : token s 110 \/ _ |- _ => destruct K as [K|K]; [apply Hn; eapply token_fun; eauto|now apply token_blank with (c := c) in K] end.
    + assert (Q : T'0 = T') by congruence. subst T'0. do 5 f_equal. auto.
  - (* l_array *) intros n T o a w s a' Hw _ IH v1 H1. inversion H1; subst; cbn [atomic opens] in *; try contradiction; try discriminate; try badT; try clash.
    + f_equal. apply IH. match goal with K : _ ++ 91 :: _ = w ++ _ |- _ => apply head_split in K; auto; [now subst|nows] end.
  - (* l_map_end *) intros k T o v w s Hk Hw Hs v1 H1. inversion H1; subst; auto; try badT.
    + exfalso. match goal with K : _ ++ 123 :: _ = w ++ _ |- _ => apply head_split in K; auto; [now subst|nows] end.
  - (* l_map *) intros k T o p w s m Hk Hw Hs _ IH v1 H1. inversion H1; subst; cbn [atomic opens] in *; try contradiction; try discriminate; try badT; try clash.
    + exfalso. match goal with K : _ ++ 123 :: _ = w ++ _ |- _ => apply head_split in K; auto; [now subst|nows] end.
    + do 2 f_equal. apply IH. match goal with K : _ ++ 123 :: _ = w ++ _ |- _ => apply head_split in K; auto; [now subst|nows] end.
  - (* l_struct *) intros layout fs o v w s v' Hf Hw _ IH v1 H1. inversion H1; subst; cbn [atomic opens] in *; try contradiction; try discriminate; try badT; try clash.
    + destruct fs; contradiction.
    + apply IH. match goal with K : _ ++ 123 :: _ = w ++ _ |- _ => apply head_split in K; auto; [now subst|nows] end.
  - (* l_ref *) intros n o v s v' _ IH v1 H1. inversion H1; subst; cbn [atomic opens] in *; try contradiction; try discriminate; try badT; auto; badT.
  - (* le_blank *) intros T l s Hs l1 H1. inversion H1; subst; auto.
    + f_equal. now apply (proj1 blank_leaves) in H0.
    + now apply taken_not_ws in H.
    + now apply taken_not_ws in H.
  - (* le_full *) intros T s l1 H1. inversion H1; subst; auto.
  - (* le_here *) intros T x l s y Hn HL IH l1 H1. inversion H1; subst.
    + f_equal. symmetry. eapply (proj1 blank_leaves); eauto.
    + f_equal. auto.
    + exfalso. eapply Hn; eauto.
    + exfalso. eapply Hn; eauto.
  - (* le_last *) intros T x l s r y Ht Hr l1 H1. inversion H1; subst.
    + now apply taken_not_ws in Ht.
    + exfalso. match goal with K : forall r v, ~ taken _ _ _ _ _ _ |- _ => eapply K; eauto end.
    + match goal with K : taken _ _ _ _ _ _ |- _ => destruct (taken_det F32 F64 C E b d sf cs sane32 sane64 _ _ _ _ _ _ _ _ _ Ht K) as [_ ->] end. auto.
    + exfalso. match goal with K : taken _ _ _ _ (?w ++ _) _ |- _ => destruct (taken_det F32 F64 C E b d sf cs sane32 sane64 _ _ _ _ _ _ _ _ _ Ht K) as [<- _] end.
      apply Hr, token_at; auto. nows.
  - (* le_next *) intros T x l s w r y l' Ht Hw _ IH l1 H1. inversion H1; subst.
    + now apply taken_not_ws in Ht.
    + exfalso. match goal with K : forall r v, ~ taken _ _ _ _ _ _ |- _ => eapply K; eauto end.
    + exfalso. match goal with K : taken _ _ _ _ ?r0 _, N : ~ token ?r0 44 |- _ => destruct (taken_det F32 F64 C E b d sf cs sane32 sane64 _ _ _ _ _ _ _ _ _ Ht K) as [-> _]; apply N, token_at; auto; nows end.
    + match goal with K : taken _ _ _ _ (?w0 ++ _) _, K1 : leaves_elems _ _ _ ?l2 |- ?y0 :: ?l2 = _ => destruct (taken_det F32 F64 C E b d sf cs sane32 sane64 _ _ _ _ _ _ _ _ _ Ht K) as [Q ->];
        apply head_split in Q; auto; [|nows]; subst end. f_equal. auto.
  - (* ln_here *) intros k T m s Hn l1 H1. inversion H1; subst; auto; exfalso; eapply Hn; eauto.
  - (* ln_last *) intros k T m s key s' r v Hk Ht Hr l1 H1. inversion H1; subst; try sameKey Hk.
    + exfalso. match goal with K : forall key s' r v, keyed _ _ _ _ -> _ |- _ => eapply K; eauto end.
    + match goal with K : taken _ _ _ s' ?r1 ?v1 |- put _ _ _ _ _ ?v1 = _ => sameTaken Ht K end. now subst.
    + exfalso. match goal with K : taken _ _ _ s' (_ ++ 44 :: _) _ |- _ => sameTaken Ht K end. apply Hr. subst r. apply token_at; auto. nows.
  - (* ln_next *) intros k T m s key s' w r v m' Hk Ht Hw _ IH l1 H1. inversion H1; subst; try sameKey Hk.
    + exfalso. match goal with K : forall key s' r v, keyed _ _ _ _ -> _ |- _ => eapply K; eauto end.
    + exfalso. match goal with K : taken _ _ _ s' ?r1 _, N : ~ token ?r1 44 |- _ => sameTaken Ht K; apply N; subst; apply token_at; auto; nows end.
    + match goal with K : taken _ _ _ s' (?w1 ++ 44 :: ?r1) ?v1, W : ws ?w1 |- _ => sameTaken Ht K; sameComma W end. subst. auto.
  - (* lm_key *) intros fs v s Hn v1 H1. inversion H1; subst; auto; exfalso; eapply Hn; eauto.
  - (* lm_unknown *) intros fs v s name r Hn Hl Hd v1 H1. inversion H1; subst; auto; try sameName Hn; try congruence;
      exfalso; destruct Hd as [Hd|Hd]; try congruence; eapply Hd; eauto.
  - (* lm_unknown_last *) intros fs v s name r t r' j Hn Hl Hd Hf Hj Hr v1 H1. inversion H1; subst; auto; try sameName Hn; try congruence.
    exfalso. match goal with K : front ?t1 _ (_ ++ 44 :: _), K1 : value ?t1 _ |- _ => destruct (front_det _ _ _ _ _ _ _ Hf Hj K K1) as [_ Q] end.
    apply Hr. rewrite <- Q. apply token_at; auto. nows.
  - (* lm_unknown_next *) intros fs v s name r t w r' j v' Hn Hl Hd Hf Hw Hj _ IH v1 H1. inversion H1; subst; auto; try sameName Hn; try congruence.
    + exfalso. eapply H; eauto.
    + exfalso. match goal with K : _ = true \/ _ |- _ => destruct K as [K|K]; [congruence|eapply K; eauto] end.
    + exfalso. match goal with K : front ?t1 _ ?r1, K1 : value ?t1 _, N : ~ token ?r1 44 |- _ => destruct (front_det _ _ _ _ _ _ _ Hf Hj K K1) as [_ Q]; apply N; rewrite Q; apply token_at; auto; nows end.
    + match goal with K : front ?t1 _ (?w1 ++ 44 :: ?r1), K1 : value ?t1 _, W : ws ?w1 |- _ => destruct (front_det _ _ _ _ _ _ _ Hf Hj K K1) as [_ Q]; sameComma W end. subst. auto.
  - (* lm_here *) intros fs v s name r i fd v' Hn Hl Hi Ht _ IH v1 H1. inversion H1; subst; auto; try sameName Hn; try congruence; try sameField Hl Hi.
    + exfalso. eapply H; eauto.
    + auto.
    + exfalso. eapply Ht; eauto.
    + exfalso. eapply Ht; eauto.
  - (* lm_last *) intros fs v s name r i fd r' v1 Hn Hl Hi Ht Hr v2 H1. inversion H1; subst; auto; try sameName Hn; try congruence; try sameField Hl Hi.
    + exfalso. eapply H; eauto.
    + exfalso. match goal with K : forall r' v1, ~ taken_at _ _ _ _ _ _ _ |- _ => eapply K; eauto end.
    + match goal with K : taken_at _ _ _ _ _ _ v2 |- _ => sameAt Ht K end. auto.
    + exfalso. match goal with K : taken_at _ _ _ _ _ (_ ++ 44 :: _) _ |- _ => sameAt Ht K end. apply Hr. subst r'. apply token_at; auto. nows.
  - (* lm_next *) intros fs v s name r i fd w r' v1 v' Hn Hl Hi Ht Hw _ IH v2 H1. inversion H1; subst; auto; try sameName Hn; try congruence; try sameField Hl Hi.
    + exfalso. eapply H; eauto.
    + exfalso. match goal with K : forall r' v1, ~ taken_at _ _ _ _ _ _ _ |- _ => eapply K; eauto end.
    + exfalso. match goal with K : taken_at _ _ _ _ _ ?r1 _, N : ~ token ?r1 44 |- _ => sameAt Ht K; apply N; subst; apply token_at; auto; nows end.
    + match goal with K : taken_at _ _ _ _ _ (?w1 ++ 44 :: ?r1) ?v3, W : ws ?w1, L : leaves_members _ ?v3 ?r1 _ |- _ => sameAt Ht K; sameComma W end. subst. auto.
  - (* la_here *) intros T o v s v' _ IH v1 H1. inversion H1; subst. auto.
  - (* la_field *) intros path T o l1 x l2 s y _ IH v1 H1. inversion H1; subst.
    match goal with K : ?a ++ ?x0 :: ?c = l1 ++ x :: l2, L : length ?a = length l1 |- _ => destruct (mid_eq _ _ _ _ _ _ K L) as (-> & -> & ->) end. do 3 f_equal. auto.
  - (* la_ptr *) intros path T o alloc x s y _ IH v1 H1. inversion H1; subst. do 2 f_equal. auto.
  - (* la_alloc *) intros path T o T' s y _ IH v1 H1. inversion H1; subst. do 2 f_equal. auto.
  - (* la_unexported *) intros path T o s v1 H1. now inversion H1.
Qed.
End PartUnique.
